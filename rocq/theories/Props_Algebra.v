(** Properties C01 - C06: declared algebras, blade signs, grade iteration. *)
From Verif Require Import Ex.
From Coq Require Import Sorting.Sorted.
Local Open Scope nat_scope.

(** C01. The masks describe the signature bit by bit, are disjoint and fill the low
    dim() bits; signature() lists the squares; the dimension counts are right. *)
Theorem C01_masks {m : Mode} sg names A : declare_algebra sg names = Some A ->
  a_dim A = length sg /\
  (forall n, (N.testbit (a_real A) (N.of_nat n) = true <-> nth_error sg n = Some Tplus) /\
             (N.testbit (a_imag A) (N.of_nat n) = true <-> nth_error sg n = Some Tminus) /\
             (N.testbit (a_proj A) (N.of_nat n) = true <-> nth_error sg n = Some Tnull)) /\
  N.land (a_real A) (a_imag A) = 0%N /\ N.land (a_real A) (a_proj A) = 0%N /\ N.land (a_imag A) (a_proj A) = 0%N /\
  (N.lor (N.lor (a_real A) (a_imag A)) (a_proj A) + 1 = 2 ^ N.of_nat (length sg))%N /\
  signature A = Ok (map (sq sg) (seq 0 (length sg))) /\
  a_real_dim A = length (filter (fun t => match t with Tplus => true | _ => false end) sg) /\
  a_imag_dim A = length (filter (fun t => match t with Tminus => true | _ => false end) sg) /\
  a_proj_dim A = length (filter (fun t => match t with Tnull => true | _ => false end) sg).
Proof. exact (masks_thm sg names A). Qed.
Print Assumptions C01_masks.

Example C01_masks_ex : exists A, declare_algebra [P1; M1; N1; N1] [] = Some A /\
  a_real A = 1%N /\ a_imag A = 2%N /\ a_proj A = 12%N /\ signature A = Ok [1; -1; 0; 0]%Z.
Proof. eexists. split; [reflexivity|]. repeat split; reflexivity. Qed.

(** The macro accepts exactly the non-empty signatures of at most 64 entries in which
    every entry after a 0 is a 0 (with no axis names, or one name per generator). *)
Theorem C01_accepts sg names :
  (exists A, declare_algebra sg names = Some A) <->
  sg <> [] /\
  (forall i j, i <= j -> nth_error sg i = Some Tnull -> j < length sg -> nth_error sg j = Some Tnull) /\
  length sg <= 64 /\ (names = [] \/ length names = length sg).
Proof. exact (declare_accepts sg names). Qed.
Print Assumptions C01_accepts.

Example C01_accepts_ex : declare_algebra [P1; N1; M1] [] = None /\ declare_algebra [P1; M1; N1] [] <> None.
Proof. split; [reflexivity|discriminate]. Qed.

(** C02. Which optional traits an accepted signature gets. *)
Theorem C02_traits sg :
  (impl_split_signature sg = true <-> exists k, k <> 0 /\ sg = concat (repeat [Tplus; Tminus] k)) /\
  (impl_non_degenerate sg = true <-> sg <> [] /\ ~ In Tnull sg) /\
  (forall n, impl_pga sg = Some n <-> n <> 0 /\ sg = repeat Tplus n ++ [Tnull]) /\
  (snd (impl_complex_or_quaternionic sg) = true <-> sg = [Tminus] \/ sg = [Tminus; Tminus]) /\
  (fst (fst (impl_complex_or_quaternionic sg)) = true <-> sg = [Tminus]) /\
  (snd (fst (impl_complex_or_quaternionic sg)) = true <-> sg = [Tminus; Tminus]).
Proof. exact (traits_thm sg). Qed.
Print Assumptions C02_traits.

Example C02_traits_ex : impl_split_signature [P1; M1; P1; M1] = true /\ impl_pga sg_pga = Some 2 /\
  impl_non_degenerate sg_pga = false /\ impl_split_signature [P1; M1; P1] = false.
Proof. repeat split; reflexivity. Qed.

(** C03. The sign and the blade are what the relations of the algebra force: the word
    of the two blades equals (sign) times the word of their xor, and nothing else. *)
Theorem C03_geo_sign {m : Mode} sg names A a b : declare_algebra sg names = Some A ->
  (a < 2 ^ N.of_nat (length sg))%N -> (b < 2 ^ N.of_nat (length sg))%N ->
  exists s, blade_geo_product_sign A a b = Ok s /\
    cl_eq (sq sg) (1%Z, gens (length sg) a ++ gens (length sg) b) (sign_i8 s, gens (length sg) (N.lxor a b)) /\
    forall t c, (c < 2 ^ N.of_nat (length sg))%N ->
      cl_eq (sq sg) (1%Z, gens (length sg) a ++ gens (length sg) b) (t, gens (length sg) c) ->
      t = sign_i8 s /\ (t = 0%Z \/ c = N.lxor a b).
Proof. exact (geo_thm sg names A a b). Qed.
Print Assumptions C03_geo_sign.

Example C03_geo_sign_ex :
  blade_geo_product_sign (alg sg_sta) 6 7 = Ok Minus /\ reduce (sq sg_sta) (gens 4 6 ++ gens 4 7) = ((-1)%Z, [0]) /\
  blade_geo_product_sign (alg sg_pga) 6 5 = Ok Null.
Proof. repeat split; reflexivity. Qed.

(** C04. Table, loop and negated sign agree (the table is used up to dimension 6). *)
Theorem C04_table {m : Mode} A a b : a_dim A <= 64 ->
  (a < 2 ^ N.of_nat (a_dim A))%N -> (b < 2 ^ N.of_nat (a_dim A))%N ->
  exists s, ac_product_sign A a b = Ok s /\ ac_product_sign_loop (a_dim A) a b = Ok s /\
    ac_negated_product_sign A a b = Ok (opposite s) /\ s <> Null.
Proof. exact (table_thm A a b). Qed.
Print Assumptions C04_table.

Example C04_table_ex : ac_product_sign (alg sg_sta) 6 9 = Ok Plus /\ ac_negated_product_sign (alg sg_sta) 1 2 = Ok Plus.
Proof. split; reflexivity. Qed.

(** C05. Wedge signs: Null iff a generator is shared, otherwise the sorting sign,
    whatever the metric q. *)
Theorem C05_wedge_sign {m : Mode} sg names A a b : declare_algebra sg names = Some A ->
  (a < 2 ^ N.of_nat (length sg))%N -> (b < 2 ^ N.of_nat (length sg))%N ->
  exists s, blade_wedge_product_sign A a b = Ok s /\
    (s = Null <-> exists i, In i (gens (length sg) a) /\ In i (gens (length sg) b)) /\
    (s <> Null -> forall q, reduce q (gens (length sg) a ++ gens (length sg) b)
                            = (sign_i8 s, gens (length sg) (N.lxor a b))).
Proof. exact (P_Props1.wedge_thm sg names A a b). Qed.
Print Assumptions C05_wedge_sign.

Example C05_wedge_sign_ex : blade_wedge_product_sign (alg sg_sta) 1 6 = Ok Plus /\
  blade_wedge_product_sign (alg sg_sta) 1 2 = Ok Minus /\ blade_wedge_product_sign (alg sg_sta) 3 6 = Ok Null.
Proof. repeat split; reflexivity. Qed.

(** C06. The grade iterator: strictly decreasing, exactly the blades with k generators,
    and the n-th call of next yields the n-th of them, afterwards None. *)
Theorem C06_grade_iter {m : Mode} d k : d <= 64 ->
  exists l, grade_iter_list d k = Ok l /\
    StronglySorted (fun x y => (y < x)%N) l /\
    (forall x, In x l <-> (x < 2 ^ N.of_nat d)%N /\ length (gens d x) = k) /\
    (forall n, nexts n (grade_iter d k) = Ok (firstn n (map Some l ++ repeat None n))).
Proof. exact (P_Props1.grade_thm d k). Qed.
Print Assumptions C06_grade_iter.

Example C06_grade_iter_ex : grade_iter_list 4 2 = Ok [12; 10; 9; 6; 5; 3]%N /\
  nexts 5 (grade_iter 3 1) = Ok [Some 4; Some 2; Some 1; None; None]%N /\ grade_iter_list 2 3 = Ok [].
Proof. repeat split; reflexivity. Qed.
