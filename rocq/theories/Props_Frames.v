(** Property C89: orthogonal transformations and the centre.  [sandwich A s x] is
    s * x * s.revm(); [versor A ws s n]: s is the product of the vectors ws and s.mag2() = n is
    not zero; [ip A u v] is the value of u.vdot(v). *)
From Verif Require Import Ex_Frames.
From Coq Require Import List NArith QArith Qcanon Lia.
Import ListNotations.
Local Open Scope nat_scope.

(** C89. Two families of pairwise orthogonal vectors with the same squares, not zero, are carried
    into each other, up to one common sign, by the sandwich with a product of at most twice as
    many vectors. *)
Theorem C89_frames {T} {RO : RingOps T} {L : RingLaws T} {CL : CommLaws T} {DV : DivOps T} {F : FieldLaws T} {m : Mode} {H : HashOrder}
  (k : kind) sg A (us vs : list (store k T)) h : declared sg A -> supports k A -> radd (r1 : T) r1 <> r0 -> length us = length vs ->
  Forall (valid A) us -> Forall (of_grade A 1) us -> Forall (valid A) vs -> Forall (of_grade A 1) vs ->
  (forall i j, i < length vs -> j < length vs -> i <> j -> ip A (nth i us h) (nth j us h) = r0 /\ ip A (nth i vs h) (nth j vs h) = r0) ->
  (forall i, i < length vs -> ip A (nth i us h) (nth i us h) = ip A (nth i vs h) (nth i vs h) /\ ip A (nth i vs h) (nth i vs h) <> r0) ->
  exists ws s n, versor A ws s n /\ length ws <= 2 * length vs /\
    forall i, i < length vs -> agree A (sandwich A s (nth i us h)) (if Nat.odd (length ws) then mv_neg A (nth i vs h) else Ok (nth i vs h)).
Proof. exact (fun D Hs => c89_frames k sg A D Hs us vs h). Qed.
Print Assumptions C89_frames.
Example C89_frames_ex := C89_frames KDense sg_11 (alg sg_11) [le0; le1] [lf0; lf1] le0 d_11 I two_qc eq_refl le_valid le_grade lf_valid lf_grade l_orth l_norm.

(** When no basis vector squares to 0, products of vectors have the same sandwich (on the basis
    vectors) exactly if they differ by a factor; in odd dimension for numbers of vectors of the
    same parity. *)
Theorem C89_unique {T} {RO : RingOps T} {L : RingLaws T} {CL : CommLaws T} {DV : DivOps T} {F : FieldLaws T} {m : Mode} {H : HashOrder}
  (k : kind) sg A (vs ws : list (store k T)) s t (n n' : T) : declared sg A -> supports k A -> radd (r1 : T) r1 <> r0 -> ~ In Tnull sg ->
  versor A vs s n -> versor A ws t n' -> (Nat.odd (a_dim A) = true -> Nat.odd (length vs) = Nat.odd (length ws)) ->
  ((forall i, i < a_dim A -> agree A (e <- unit_blade A (2 ^ N.of_nat i) ;; sandwich A s e) (e <- unit_blade A (2 ^ N.of_nat i) ;; sandwich A t e)) <->
   exists c, c <> r0 /\ agree A (Ok s) (mv_scale A t c)).
Proof. exact (fun D Hs => c89_unique k sg A D Hs vs ws s t n n'). Qed.
Print Assumptions C89_unique.
Example C89_unique_ex := C89_unique KDense sg_11 (alg sg_11) [lv2] [lv] lv2 lv _ _ d_11 I two_qc
  ltac:(cbn; intuition discriminate) lv2_versor lv_versor ltac:(reflexivity).
Example C89_unique_factor : exists c, c <> r0 /\ agree (alg sg_11) (Ok lv2) (mv_scale (alg sg_11) lv c).
Proof.
  exists (qc 2 1). split; [discriminate|]. eexists. eexists. split; [reflexivity|]. split; [vm_compute; reflexivity|].
  split; [vld|]. split; [vld|]. split; [vm_compute; reflexivity|reflexivity].
Qed.

(** The multivectors commuting with the basis vectors are the combinations of the [central]
    blades (any ring without elements of order 2); over commutative scalars they commute with
    every multivector. *)
Theorem C89_centre {T} {RO : RingOps T} {L : RingLaws T} {m : Mode} {H : HashOrder}
  (k : kind) sg A (x : store k T) : declared sg A -> supports k A -> (forall a : T, radd a a = r0 -> a = r0) -> valid A x ->
  ((forall i, i < a_dim A -> agree A (e <- unit_blade A (2 ^ N.of_nat i) ;; mv_mul A e x) (e <- unit_blade A (2 ^ N.of_nat i) ;; mv_mul A x e)) <->
   forall I, (I < 2 ^ N.of_nat (a_dim A))%N -> central sg I = false -> mv_get_by_idx x I = Ok r0).
Proof. exact (fun D Hs => c89_centre k sg A D Hs x). Qed.
Print Assumptions C89_centre.
Example C89_centre_ex := C89_centre KDense sg_pga (alg sg_pga) cz d_pga I qc_two cz_valid.
Example C89_centre_pga : map (fun i => central sg_pga (N.of_nat i)) (seq 0 8) = [true; false; false; false; false; false; false; true].
Proof. reflexivity. Qed.
Example C89_centre_null : map (fun i => central [Tnull; Tplus; Tnull; Tnull] (N.of_nat i)) (seq 0 16)
  = [true; false; false; false; false; true; false; false; false; true; false; false; true; false; false; false].
Proof. reflexivity. Qed.

Theorem C89_all {T} {RO : RingOps T} {L : RingLaws T} {CL : CommLaws T} {m : Mode} {H : HashOrder}
  (k : kind) sg A (x y : store k T) : declared sg A -> supports k A -> valid A x -> valid A y ->
  (forall i, i < a_dim A -> agree A (e <- unit_blade A (2 ^ N.of_nat i) ;; mv_mul A e x) (e <- unit_blade A (2 ^ N.of_nat i) ;; mv_mul A x e)) ->
  agree A (mv_mul A y x) (mv_mul A x y).
Proof. exact (fun D Hs => c89_all k sg A D Hs x y). Qed.
Print Assumptions C89_all.
Example C89_all_ex : agree (alg sg_pga) (mv_mul (alg sg_pga) px cz) (mv_mul (alg sg_pga) cz px).
Proof.
  apply (C89_all KDense sg_pga (alg sg_pga) cz px d_pga I cz_valid px_valid).
  apply (C89_centre KDense sg_pga (alg sg_pga) cz d_pga I qc_two cz_valid). intros i Hi. change (i < 8)%N in Hi.
  assert (E : i = 0%N \/ i = 1%N \/ i = 2%N \/ i = 3%N \/ i = 4%N \/ i = 5%N \/ i = 6%N \/ i = 7%N) by lia.
  destruct E as [-> | [-> | [-> | [-> | [-> | [-> | [-> | -> ]]]]]]]; try discriminate; reflexivity.
Qed.
