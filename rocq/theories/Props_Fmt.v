(** Property C55: the printed form. *)
From Coq Require Import String.
From Coq Require Import Sorting.Sorted.
From Verif Require Import Ex Ex_Fmt Spec_Fmt P_Fmt.
Local Open Scope nat_scope.

(** C55. The printed form lists exactly the non-zero terms, each once (in ascending order but for
    sparse multivectors), coefficient then label, joined by " + "; with no term, the zero is printed.
    The sum of the listed terms is the multivector, and each listed coefficient and word of
    generators, in either form, denotes the blade multiplied by the coefficient read from x. *)
Theorem C55_display {T} {RO : RingOps T} {L : RingLaws T} {FO : FmtOps T} {m : Mode} {H : HashOrder} (k : kind) sg A
  (nm : nat -> string) (fl : flags) (x : store k T) :
  declared sg A -> (forall i, i < a_dim A -> a_name A i = Ok (nm i)) -> valid A x ->
  exists ts is (l : list (store k T)),
    mv_fmt A fl x = Ok (printed fl nm ts) /\
    NoDup is /\ (forall i, In i is <-> (i < pow2 (a_dim A))%N /\ rd x i <> r0) /\
    (k <> KSparse -> StronglySorted N.lt is) /\
    map snd ts = map (fun i => if f_alternate fl then rev (gens (a_dim A) i) else gens (a_dim A) i) is /\
    (f_alternate fl = false -> map fst ts = map (rd x) is) /\
    mv_basis A = Ok l /\
    agree A (terms_value A l ts) (Ok x) /\
    Forall2 (fun t i => agree A (term_value A l t) (b <- unit_blade A i ;; mv_scale A b (rd x i))) ts is.
Proof. exact (fun D Hn => fmt_thm k sg A D nm Hn fl x). Qed.
Print Assumptions C55_display.

Example C55_display_ex : declared sg_e3 (alg sg_e3) /\
  (forall i, i < 3 -> a_name (alg sg_e3) i = Ok (nth i ["e0"; "e1"; "e2"] ""))%string /\ valid (alg sg_e3) x3 /\ valid (alg sg_e3) xs /\ valid (alg sg_q) xq /\
  mv_fmt (alg sg_e3) (mkFlags false false 0) x3 = Ok "1 + 2 e0 + (-3) e1^e0 + 5 e2^e0 + 7 e2^e1^e0"%string /\
  mv_fmt (alg sg_e3) (mkFlags true false 0) x3 = Ok "1 + 2 e0 + 3 e0^e1 + (-5) e0^e2 + (-7) e0^e1^e2"%string /\
  mv_fmt (alg sg_e3) (mkFlags false true 0) (mkArr 3 [0; 2; 0; -3; 0; 0; 0; 0]%Z : store KDense Z) = Ok "(+2) e0 + (-3) e1^e0"%string /\
  mv_fmt (alg sg_e3) (mkFlags false false 0) xs = Ok "3 e0 + 2 e2^e0"%string /\
  mv_fmt (alg sg_q) (mkFlags false false 0) xq = Ok "1 + 2 e0 + 3 e1 + 4 e1^e0"%string /\
  mv_fmt (alg sg_e3) (mkFlags false false 0) (mkArr 3 [0; 0; 0; 0; 0; 0; 0; 0]%Z : store KDense Z) = Ok "0"%string.
Proof.
  split; [exact d_e3|]. split; [intros [|[|[|i]]] Hi; try reflexivity; exfalso; lia|]. split; [exact v_x3|]. split; [exact v_xs|]. split; [exact v_xq|].
  vm_compute. repeat split.
Qed.
