(** Properties C52 and C53: the size limit of algebras, and multivectors as coefficients. *)
From Verif Require Import Ex P_Props7.
Local Open Scope nat_scope.

(** C52. The macro accepts up to 64 generators, but 64 is one too many: in a debug build
    every constructor of a sparse multivector panics, in a release build all basis
    vectors are zero and every index but 0 is rejected. *)
Theorem C52_64_generators_refuted {T} {RO : RingOps T} {L : RingLaws T} {m : Mode} {H : HashOrder} sg names A :
  declare_algebra sg names = Some A -> length sg = 64 ->
  (checks = true -> mv_zero A = Panic (A := store KSparse T) /\ mv_one A = Panic (A := store KSparse T) /\
                    mv_basis A = Panic (A := list (store KSparse T))) /\
  (checks = false ->
    (exists l : list (store KSparse T), mv_basis A = Ok l /\ length l = 64 /\ Forall (fun e => mv_is_zero e = true) l) /\
    (forall i c, (0 < i)%N -> mv_from_indexed_iter A [(i, c)] = Err IndexOutOfBounds (A := store KSparse T))).
Proof. exact (at_64_thm sg names A). Qed.
Print Assumptions C52_64_generators_refuted.

Example C52_64_generators_refuted_ex : exists A, declare_algebra (repeat P1 63 ++ [N1]) [] = Some A /\ length (repeat P1 63 ++ [N1]) = 64.
Proof. eexists. split; reflexivity. Qed.

(** Below 64 generators everything works. *)
Theorem C52_usable_partial {T} {RO : RingOps T} {L : RingLaws T} {m : Mode} {H : HashOrder} (k : kind) sg A :
  declared sg A -> supports k A ->
  gives A (mv_zero A : res (store k T)) (fun _ => r0) /\
  gives A (mv_one A : res (store k T)) (single 0%N r1) /\
  (exists l : list (store k T), mv_basis A = Ok l /\ length l = a_dim A /\
     forall i, i < a_dim A -> exists e, nth_error l i = Some e /\ gives A (Ok e) (single (2 ^ N.of_nat i)%N r1)) /\
  (forall l, (forall i c, In (i, c) l -> (i < 2 ^ N.of_nat (a_dim A))%N) ->
     gives A (mv_from_indexed_iter A l : res (store k T)) (last_write l)).
Proof. exact (below_64_thm k sg A). Qed.
Print Assumptions C52_usable_partial.

Example C52_usable_partial_ex : let sg := repeat P1 40 ++ repeat M1 22 ++ [N1] in
  declared sg (alg sg) /\ supports KSparse (alg sg) /\ a_dim (alg sg) = 63.
Proof. cbv zeta. split; [dcl|]. split; [exact I|reflexivity]. Qed.

(** C53. The coefficient operations of [Multivector<T, A>] are total (no panic) and lawful. *)
Theorem C53_nested_calls_total {T} {RO : RingOps T} {L : RingLaws T} {m : Mode} {H : HashOrder} sg A : declared sg A ->
  let v (x : nested T A) : arr T := proj1_sig x in
  let O := nested_ops A in
  (forall x y, mv_add (v x) (v y) = Ok (v (radd x y))) /\ (forall x y, mv_sub (v x) (v y) = Ok (v (rsub x y))) /\
  (forall x y, mv_mul A (v x) (v y) = Ok (v (rmul x y))) /\ (forall x, mv_neg A (v x) = Ok (v (rneg x))) /\
  mv_zero A = Ok (v r0) /\ mv_one A = Ok (v r1) /\
  (forall z : store KDense T, valid A z -> exists x, v x = z).
Proof. exact (nested_calls_thm sg A). Qed.
Print Assumptions C53_nested_calls_total.
Example C53_nested_calls_total_ex := C53_nested_calls_total (T := Z) sg_sta (alg sg_sta) d_sta.

Theorem C53_nested_ring {T} {RO : RingOps T} {L : RingLaws T} {m : Mode} {H : HashOrder} sg A : declared sg A ->
  @RingLaws (nested T A) (nested_ops A).
Proof. exact (nested_laws sg A). Qed.
Print Assumptions C53_nested_ring.
Example C53_nested_ring_ex := C53_nested_ring (T := Z) sg_sta (alg sg_sta) d_sta.

(** At every nesting depth. *)
Theorem C53_every_depth {m : Mode} {H : HashOrder} T (RO : RingOps T) (L : RingLaws T) (l : list algebra) :
  Forall (fun A => exists sg, declared sg A) l ->
  @RingLaws (projT1 (tower T RO l)) (projT2 (tower T RO l)).
Proof. exact (tower_laws T RO L l). Qed.
Print Assumptions C53_every_depth.

(** Quaternions over space-time over integers: (i e1) (i e1) = 1. *)
Example C53_ex : declared sg_sta (alg sg_sta) /\ Forall (fun A => exists sg, declared sg A) [alg sg_q; alg sg_sta] /\
  let O := nested_ops (T := Z) (alg sg_11) in
  let e : nested Z (alg sg_11) := settle (alg sg_11) (Ok (mkArr 2 [0; 0; 1; 0]%Z)) in
  (r <- mv_mul (alg sg_q) (mkArr 2 [r0; e; r0; r0] : store KDense _) (mkArr 2 [r0; e; r0; r0]) ;; Ok (map (fun x => arr_data (proj1_sig x)) (arr_data r)))
   = Ok [[1; 0; 0; 0]; [0; 0; 0; 0]; [0; 0; 0; 0]; [0; 0; 0; 0]]%Z.
Proof.
  split; [exact d_sta|]. split; [constructor; [eexists; exact d_q|constructor; [eexists; exact d_sta|constructor]]|].
  vm_compute. reflexivity.
Qed.
