(** Properties C33, C34: the derived algebras of the transform.
    F stands for the exact real numbers, T for the coefficient type (F or cplx F);
    k and k' range over the three storages. *)
From Verif Require Import Ex_FFT P_Props8.
Local Open Scope nat_scope.

(** C33. decomplexify recovers the multivector. *)
Theorem C33_roundtrip {T F} {RT : RingOps T} {LT : RingLaws T} {RF : RingOps F} {LF : RingLaws F}
  {IC : IntoCplx T F} {FC : FromCplx T F} {CV : ConvLaws T F} {m : Mode} {H : HashOrder} (k k' : kind) sg A (x : store k T) :
  declared sg A -> supports k' A -> valid A x ->
  agree A (z <- (complexify A x : res (store k' (cplx F))) ;; decomplexify A z) (Ok x).
Proof. exact (fun D Hs Hx => c33_roundtrip sg A D x Hx (supports_dim sg A k' D Hs)). Qed.
Print Assumptions C33_roundtrip.
(** 1 + 2 e0 - 3/2 e1 e0 with e0^2 = 1, e1^2 = -1, dense, through a sparse complexification. *)
Example C33_roundtrip_ex : let A := alg sg_11 in let x : store KDense Qc := mkArr 2 a2 in
  agree A (z <- (complexify A x : res (store KSparse (cplx Qc))) ;; decomplexify A z) (Ok x).
Proof. cbv zeta. apply (C33_roundtrip KDense KSparse sg_11); [dcl|exact I|vld]. Qed.

(** Products and sums are preserved, and so is 1. *)
Theorem C33_product {T F} {RT : RingOps T} {LT : RingLaws T} {RF : RingOps F} {LF : RingLaws F}
  {IC : IntoCplx T F} {FC : FromCplx T F} {CV : ConvLaws T F} {m : Mode} {H : HashOrder} (k k' : kind) sg A (x y : store k T) :
  declared sg A -> supports k' A -> valid A x -> valid A y ->
  agree (Complexification A) (z <- mv_mul A x y ;; (complexify A z : res (store k' (cplx F))))
    (X <- complexify A x ;; Y <- complexify A y ;; mv_mul (Complexification A) X Y).
Proof. exact (fun D Hs Hx Hy => c33_mul sg A D x y Hx Hy (supports_dim sg A k' D Hs)). Qed.
Print Assumptions C33_product.
Example C33_product_ex : let A := alg sg_11 in let x : store KDense Qc := mkArr 2 a2 in let y : store KDense Qc := mkArr 2 b2 in
  agree (Complexification A) (z <- mv_mul A x y ;; (complexify A z : res (store KSparse (cplx Qc))))
    (X <- complexify A x ;; Y <- complexify A y ;; mv_mul (Complexification A) X Y).
Proof. cbv zeta. apply (C33_product KDense KSparse sg_11); [dcl|exact I|vld|vld]. Qed.

Theorem C33_sum {T F} {RT : RingOps T} {LT : RingLaws T} {RF : RingOps F} {LF : RingLaws F}
  {IC : IntoCplx T F} {FC : FromCplx T F} {CV : ConvLaws T F} {m : Mode} {H : HashOrder} (k k' : kind) sg A (x y : store k T) :
  declared sg A -> supports k' A -> valid A x -> valid A y ->
  agree (Complexification A) (z <- mv_add x y ;; (complexify A z : res (store k' (cplx F))))
    (X <- complexify A x ;; Y <- complexify A y ;; mv_add X Y).
Proof. exact (fun D Hs Hx Hy => c33_add sg A D x y Hx Hy (supports_dim sg A k' D Hs)). Qed.
Print Assumptions C33_sum.
Example C33_sum_ex : let A := alg sg_11 in let x : store KDense Qc := mkArr 2 a2 in let y : store KDense Qc := mkArr 2 b2 in
  agree (Complexification A) (z <- mv_add x y ;; (complexify A z : res (store KSparse (cplx Qc))))
    (X <- complexify A x ;; Y <- complexify A y ;; mv_add X Y).
Proof. cbv zeta. apply (C33_sum KDense KSparse sg_11); [dcl|exact I|vld|vld]. Qed.

Theorem C33_one {T F} {RT : RingOps T} {LT : RingLaws T} {RF : RingOps F} {LF : RingLaws F}
  {IC : IntoCplx T F} {FC : FromCplx T F} {CV : ConvLaws T F} {m : Mode} {H : HashOrder} (k k' : kind) sg A :
  declared sg A -> supports k A -> supports k' A ->
  agree (Complexification A) (z <- (mv_one A : res (store k T)) ;; (complexify A z : res (store k' (cplx F)))) (mv_one (Complexification A)).
Proof. exact (fun D Hs Hs' => c33_one sg A D (supports_dim sg A k D Hs) (supports_dim sg A k' D Hs')). Qed.
Print Assumptions C33_one.
Example C33_one_ex : let A := alg sg_pga in
  agree (Complexification A) (z <- (mv_one A : res (store KDense Qc)) ;; (complexify A z : res (store KSparse (cplx Qc)))) (mv_one (Complexification A)).
Proof. cbv zeta. apply (C33_one KDense KSparse sg_pga); [dcl|exact I|exact I]. Qed.

(** The generators of the complexified algebra square to 1 or 0. *)
Theorem C33_metric {F} {RF : RingOps F} {LF : RingLaws F} {m : Mode} {H : HashOrder} (k : kind) sg A (X Y : store k (cplx F)) :
  declared sg A -> valid (Complexification A) X -> valid (Complexification A) Y ->
  gives (Complexification A) (mv_mul (Complexification A) X Y) (spec_mul (sq_abs sg) (length sg) (rd X) (rd Y)).
Proof. exact (fun D => c33_metric sg A D X Y). Qed.
Print Assumptions C33_metric.
(** i e1 in the complexification of the algebra above: e1 squares to 1 there. *)
Example C33_metric_ex : let A := alg sg_11 in let X : store KDense (cplx Qc) := mkArr 2 [cq 1 1 0 1; cq 0 1 0 1; cq 0 1 1 1; cq 0 1 2 1] in
  gives (Complexification A) (mv_mul (Complexification A) X X) (spec_mul (sq_abs sg_11) (length sg_11) (rd X) (rd X)) /\
  reqb (spec_mul (sq_abs sg_11) (length sg_11) (rd X) (rd X) 0) (cq 4 1 0 1) = true.
Proof. cbv zeta. split; [apply (C33_metric KDense sg_11); [dcl|vld|vld]|vm_compute; reflexivity]. Qed.

(** Each generator of square -1 in a blade contributes a factor -i. *)
Theorem C33_coefficients {T F} {RT : RingOps T} {LT : RingLaws T} {RF : RingOps F} {LF : RingLaws F}
  {IC : IntoCplx T F} {FC : FromCplx T F} {CV : ConvLaws T F} {m : Mode} {H : HashOrder} (k k' : kind) sg A (x : store k T) :
  declared sg A -> supports k' A -> valid A x ->
  gives (Complexification A) (complexify A x : res (store k' (cplx F)))
    (fun i => Nat.iter (neg_gens sg i) (rmul (mkC r0 (rneg r1))) (into_complex (rd x i))).
Proof. exact (fun D Hs Hx => c33_coefs sg A D x Hx (supports_dim sg A k' D Hs)). Qed.
Print Assumptions C33_coefficients.

(** 1 + 2 e0 - 3/2 e1 e0 in the algebra with e0^2 = 1, e1^2 = -1, and its square. *)
Example C33_ex : let A := alg sg_11 in let x : store KDense Qc := mkArr 2 a2 in
  declared sg_11 A /\ supports KSparse A /\ valid A x /\
  exists (X X2 Z : store KDense (cplx Qc)) z, complexify A x = Ok X /\ mv_mul (Complexification A) X X = Ok X2 /\
    mv_mul A x x = Ok z /\ complexify A z = Ok Z /\ mv_eqb X2 Z = true /\
    reqb (nth 3 (arr_data X) r0) (cq 0 1 3 2) = true.
Proof.
  cbv zeta. split; [dcl|]. split; [exact I|]. split; [vld|]. do 4 eexists. do 4 (split; [vm_compute; reflexivity|]). split; vm_compute; reflexivity.
Qed.

(** C34. With an even number of non-null generators nothing changes ... *)
Theorem C34_even_signature {T} {RO : RingOps T} {L : RingLaws T} {m : Mode} {H : HashOrder} (k : kind) sg A (x : store k T) :
  declared sg A -> Nat.even (nonnull sg) = true ->
  a_dim (Even A) = a_dim A /\ a_real (Even A) = a_real A /\ a_imag (Even A) = a_imag A /\ a_proj (Even A) = a_proj A /\
  into_original A x = Ok x.
Proof. exact (fun D => c34_even sg A D x). Qed.
Print Assumptions C34_even_signature.
Example C34_even_signature_ex : let sg := [P1; M1; N1] in let A := alg sg in let x : store KDense Z := mkArr 3 [1; 2; 0; 0; 0; 3; 0; 0]%Z in
  a_dim (Even A) = 3 /\ into_original A x = Ok x.
Proof. cbv zeta. destruct (C34_even_signature KDense [P1; M1; N1] _ (mkArr 3 [1; 2; 0; 0; 0; 3; 0; 0]%Z : store KDense Z) ltac:(dcl) eq_refl) as (E & _ & _ & _ & F). split; [reflexivity|exact F]. Qed.

(** ... otherwise one generator of square 1 is inserted after the last non-null one. *)
Theorem C34_metric {T} {RO : RingOps T} {L : RingLaws T} {m : Mode} {H : HashOrder} (k : kind) sg A (X Y : store k T) :
  declared sg A -> length sg < 63 -> Nat.even (nonnull sg) = false ->
  valid (Even A) X -> valid (Even A) Y ->
  gives (Even A) (mv_mul (Even A) X Y) (spec_mul (sq_ins sg (nonnull sg)) (S (length sg)) (rd X) (rd Y)).
Proof. exact (fun D Hl E => c34_metric sg A D Hl E X Y). Qed.
Print Assumptions C34_metric.
(** The generator inserted in Cl(1,0,1) squares to 1: (1 + 2 e1)^2 = 5 + 4 e1. *)
Example C34_metric_ex : let sg := [P1; N1] in let A := alg sg in let X : store KDense Z := mkArr 3 [1; 0; 2; 0; 0; 0; 0; 0]%Z in
  gives (Even A) (mv_mul (Even A) X X) (spec_mul (sq_ins sg (nonnull sg)) (S (length sg)) (rd X) (rd X)) /\
  spec_mul (sq_ins sg (nonnull sg)) (S (length sg)) (rd X) (rd X) 0 = 5%Z.
Proof. cbv zeta. split; [apply (C34_metric KDense [P1; N1]); [dcl|cbn; lia|reflexivity|vld|vld]|vm_compute; reflexivity]. Qed.

(** X holds the coefficients of x, and zero at the blades with the new generator. *)
Theorem C34_recovers {T} {RO : RingOps T} {L : RingLaws T} {m : Mode} {H : HashOrder} (k : kind) sg A (x X : store k T) :
  declared sg A -> length sg < 63 -> Nat.even (nonnull sg) = false ->
  valid A x -> valid (Even A) X ->
  (forall i, (i < 2 ^ N.of_nat (a_dim (Even A)))%N -> rd X i = padded (nonnull sg) (rd x) i) ->
  agree A (into_original A X) (Ok x).
Proof. exact (fun D Hl E => c34_back sg A D Hl E x X). Qed.
Print Assumptions C34_recovers.
Example C34_recovers_ex : let A := alg [P1; N1] in
  agree A (into_original A (mkArr 3 [1; 2; 0; 0; 0; 3; 0; 0]%Z : store KDense Z)) (Ok (mkArr 2 [1; 2; 0; 3]%Z : store KDense Z)).
Proof.
  cbv zeta. apply (C34_recovers KDense [P1; N1]); [dcl|cbn; lia|reflexivity|vld|vld|]. intros i Hi.
  change (i < 8)%N in Hi. destruct i as [|[[[p|p|]|[p|p|]|]|[[p|p|]|[p|p|]|]|]]; try reflexivity; exfalso; lia.
Qed.

Theorem C34_product {T} {RO : RingOps T} {L : RingLaws T} {m : Mode} {H : HashOrder} (k : kind) sg A (x y X Y : store k T) :
  declared sg A -> length sg < 63 -> Nat.even (nonnull sg) = false ->
  valid A x -> valid A y -> valid (Even A) X -> valid (Even A) Y ->
  (forall i, (i < 2 ^ N.of_nat (a_dim (Even A)))%N -> rd X i = padded (nonnull sg) (rd x) i) ->
  (forall i, (i < 2 ^ N.of_nat (a_dim (Even A)))%N -> rd Y i = padded (nonnull sg) (rd y) i) ->
  exists z Z : store k T, mv_mul A x y = Ok z /\ mv_mul (Even A) X Y = Ok Z /\ valid A z /\ valid (Even A) Z /\
    (forall i, (i < 2 ^ N.of_nat (a_dim (Even A)))%N -> rd Z i = padded (nonnull sg) (rd z) i) /\
    agree A (into_original A Z) (mv_mul A x y).
Proof. exact (fun D Hl E => c34_mul sg A D Hl E x y X Y). Qed.
Print Assumptions C34_product.
Example C34_product_ex : let A := alg [P1; N1] in let X : store KDense Z := mkArr 3 [1; 2; 0; 0; 0; 3; 0; 0]%Z in
  exists Z0 : store KDense Z, mv_mul (Even A) X X = Ok Z0 /\
    agree A (into_original A Z0) (mv_mul A (mkArr 2 [1; 2; 0; 3]%Z : store KDense Z) (mkArr 2 [1; 2; 0; 3]%Z)).
Proof.
  cbv zeta. assert (E : forall i, (i < 2 ^ N.of_nat (a_dim (Even (alg [P1; N1]))))%N ->
    rd (mkArr 3 [1; 2; 0; 0; 0; 3; 0; 0]%Z : store KDense Z) i = padded (nonnull [P1; N1]) (rd (mkArr 2 [1; 2; 0; 3]%Z : store KDense Z)) i).
  { intros i Hi. change (i < 8)%N in Hi. destruct i as [|[[[p|p|]|[p|p|]|]|[[p|p|]|[p|p|]|]|]]; try reflexivity; exfalso; lia. }
  destruct (C34_product KDense [P1; N1] (alg [P1; N1]) (mkArr 2 [1; 2; 0; 3]%Z : store KDense Z) (mkArr 2 [1; 2; 0; 3]%Z) (mkArr 3 [1; 2; 0; 0; 0; 3; 0; 0]%Z) (mkArr 3 [1; 2; 0; 0; 0; 3; 0; 0]%Z))
    as (z & Z0 & _ & EZ & _ & _ & _ & G); [dcl|cbn; lia|reflexivity|vld|vld|vld|vld|exact E|exact E|].
  exists Z0. split; assumption.
Qed.

Theorem C34_sum {T} {RO : RingOps T} {L : RingLaws T} {m : Mode} {H : HashOrder} (k : kind) sg A (x y X Y : store k T) :
  declared sg A -> length sg < 63 -> Nat.even (nonnull sg) = false ->
  valid A x -> valid A y -> valid (Even A) X -> valid (Even A) Y ->
  (forall i, (i < 2 ^ N.of_nat (a_dim (Even A)))%N -> rd X i = padded (nonnull sg) (rd x) i) ->
  (forall i, (i < 2 ^ N.of_nat (a_dim (Even A)))%N -> rd Y i = padded (nonnull sg) (rd y) i) ->
  agree A (Z <- mv_add X Y ;; into_original A Z) (mv_add x y).
Proof. exact (fun D Hl E => c34_add sg A D Hl E x y X Y). Qed.
Print Assumptions C34_sum.
Example C34_sum_ex : let A := alg [P1; N1] in let X : store KDense Z := mkArr 3 [1; 2; 0; 0; 0; 3; 0; 0]%Z in
  agree A (Z0 <- mv_add X X ;; into_original A Z0) (mv_add (mkArr 2 [1; 2; 0; 3]%Z : store KDense Z) (mkArr 2 [1; 2; 0; 3]%Z)).
Proof.
  cbv zeta. assert (E : forall i, (i < 2 ^ N.of_nat (a_dim (Even (alg [P1; N1]))))%N ->
    rd (mkArr 3 [1; 2; 0; 0; 0; 3; 0; 0]%Z : store KDense Z) i = padded (nonnull [P1; N1]) (rd (mkArr 2 [1; 2; 0; 3]%Z : store KDense Z)) i).
  { intros i Hi. change (i < 8)%N in Hi. destruct i as [|[[[p|p|]|[p|p|]|]|[[p|p|]|[p|p|]|]|]]; try reflexivity; exfalso; lia. }
  apply (C34_sum KDense [P1; N1]); [dcl|cbn; lia|reflexivity|vld|vld|vld|vld|exact E|exact E].
Qed.

(** Components with the new generator are dropped. *)
Theorem C34_drops {T} {RO : RingOps T} {L : RingLaws T} {m : Mode} {H : HashOrder} (k : kind) sg A (X : store k T) :
  declared sg A -> length sg < 63 -> Nat.even (nonnull sg) = false ->
  supports k A -> valid (Even A) X ->
  gives A (into_original A X) (fun i => rd X (with_gap (nonnull sg) i)).
Proof. exact (fun D Hl E Hs HX => c34_into sg A D Hl E X HX (supports_dim sg A k D Hs)). Qed.
Print Assumptions C34_drops.
Example C34_drops_ex : let A := alg [P1; N1] in let X : store KDense Z := mkArr 3 [1; 2; 8; 9; 0; 3; 7; 6]%Z in
  gives A (into_original A X) (fun i => rd X (with_gap (nonnull [P1; N1]) i)) /\
  map (fun i => rd X (with_gap (nonnull [P1; N1]) i)) [0; 1; 2; 3]%N = [1; 2; 0; 3]%Z.
Proof. cbv zeta. split; [apply (C34_drops KDense [P1; N1]); [dcl|cbn; lia|reflexivity|exact I|vld]|reflexivity]. Qed.

(** 1 + 2 e0 + 3 e1 e0 in the algebra with e0^2 = 1, e1^2 = 0: the new generator goes between them. *)
Example C34_ex : let sg := [P1; N1] in let A := alg sg in let x : store KDense Z := mkArr 2 [1; 2; 0; 3]%Z in
  let X : store KDense Z := mkArr 3 [1; 2; 0; 0; 0; 3; 0; 0]%Z in
  declared sg A /\ Nat.even (nonnull sg) = false /\ valid A x /\ valid (Even A) X /\
  forall i, (i < 2 ^ N.of_nat (a_dim (Even A)))%N -> rd X i = padded (nonnull sg) (rd x) i.
Proof.
  cbv zeta. split; [dcl|]. split; [reflexivity|]. split; [vld|]. split; [vld|]. intros i Hi.
  change (i < 8)%N in Hi. destruct i as [|[[[p|p|]|[p|p|]|]|[[p|p|]|[p|p|]|]|]]; try reflexivity; exfalso; lia.
Qed.
