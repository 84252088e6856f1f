(** Small specifications, written without the model's internal helpers.
    From the model only the observation [get_by_idx] and the validity predicate of a
    storage are used (in [rd], [gives], [agree]). *)
From Verif Require Export M_Multivector P_Storage.
Local Open Scope nat_scope.

(** *** Words in the generators *)

(** Square of generator n in a signature written as tokens; 0 beyond its end. *)
Definition sq (sg : list tok) (n : nat) : Z :=
  match nth_error sg n with Some Tplus => 1%Z | Some Tminus => (-1)%Z | _ => 0%Z end.

(** The generators of blade I, highest first. *)
Definition gens (n : nat) (I : N) : list nat :=
  filter (fun i => N.testbit I (N.of_nat i)) (rev (seq 0 n)).

(** The congruence on integer multiples of words generated by
    e_i e_j = - e_j e_i (i <> j), e_i e_i = q i and 0 u = 0 v. *)
Inductive cl_eq (q : nat -> Z) : Z * list nat -> Z * list nat -> Prop :=
| cl_swap s u i j v : i <> j -> cl_eq q (s, u ++ i :: j :: v) ((- s)%Z, u ++ j :: i :: v)
| cl_square s u i v : cl_eq q (s, u ++ i :: i :: v) ((s * q i)%Z, u ++ v)
| cl_zero u v : cl_eq q (0%Z, u) (0%Z, v)
| cl_refl a : cl_eq q a a
| cl_sym a b : cl_eq q a b -> cl_eq q b a
| cl_trans a b c : cl_eq q a b -> cl_eq q b c -> cl_eq q a c.

(** The same relations as a reduction procedure: e_i times a decreasing word ... *)
Fixpoint insert_gen (q : nat -> Z) (i : nat) (w : list nat) : Z * list nat :=
  match w with
  | [] => (1%Z, [i])
  | j :: r =>
      if Nat.ltb j i then (1%Z, i :: w)
      else if Nat.eqb i j then (q i, r)
      else let (s, w') := insert_gen q i r in ((- s)%Z, j :: w')
  end.
(** ... and of any word. *)
Fixpoint reduce (q : nat -> Z) (w : list nat) : Z * list nat :=
  match w with
  | [] => (1%Z, [])
  | i :: r => let (s, w') := reduce q r in
              let (t, w'') := insert_gen q i w' in ((s * t)%Z, w'')
  end.

(** Sign (1, -1 or 0) of the product of blades a and b. *)
Definition csign (q : nat -> Z) (n : nat) (a b : N) : Z := fst (reduce q (gens n a ++ gens n b)).

(** Metric of the exterior algebra. *)
Definition q0 : nat -> Z := fun _ => 0%Z.

Definition zact {T} {RO : RingOps T} (s : Z) (x : T) : T :=
  if (s =? 1)%Z then x else if (s =? -1)%Z then rneg x else r0.

(** Bilinear extension of the blade product to coefficient functions. *)
Definition spec_mul {T} {RO : RingOps T} (q : nat -> Z) (n : nat) (x y : N -> T) (k : N) : T :=
  sumI n (fun i => sumI n (fun j =>
    if (N.lxor i j =? k)%N then zact (csign q n i j) (rmul (x i) (y j)) else r0)).

(** *** Declared algebras *)

(** A signature the macro accepts, below the 64-generator limit of [usize] shifts. *)
Definition declared (sg : list tok) (A : algebra) : Prop :=
  (exists names, declare_algebra sg names = Some A) /\ length sg < 64.

(** *** Observations *)
Section Obs.
Context {T : Type} {RO : RingOps T} {S : Type} {St : Storage T S} {SL : StorageLaws T S}.

(** The coefficient the API reports. *)
Definition rd (x : S) (i : N) : T := match mv_get_by_idx x i with Ok v => v | _ => r0 end.

(** A valid multivector of algebra A. *)
Definition valid (A : algebra) (x : S) : Prop := st_wf (a_dim A) x.

(** The computation succeeds with a valid multivector whose coefficients are f. *)
Definition gives (A : algebra) (r : res S) (f : N -> T) : Prop :=
  exists z, r = Ok z /\ valid A z /\
    forall k, (k < pow2 (a_dim A))%N -> mv_get_by_idx z k = Ok (f k).

(** Both computations succeed, with valid multivectors that compare equal. *)
Definition agree (A : algebra) (r s : res S) : Prop :=
  exists x y, r = Ok x /\ s = Ok y /\ valid A x /\ valid A y /\ mv_eqb x y = true /\
    forall k, (k < pow2 (a_dim A))%N -> rd x k = rd y k.

(** Coefficient function with a single entry. *)
Definition single (j : N) (c : T) (i : N) : T := if (i =? j)%N then c else r0.
End Obs.

(** *** The three storages *)
Inductive kind := KDense | KSparse | KQuat.

Definition store (k : kind) (T : Type) : Type :=
  match k with KDense => arr T | KSparse => sps T | KQuat => qst T end.

#[global] Instance KStorage {T} {RO : RingOps T} {m : Mode} {H : HashOrder} (k : kind) : Storage T (store k T) :=
  match k return Storage T (store k T) with
  | KDense => ArrStorage | KSparse => SpsStorage | KQuat => QStorage
  end.

#[global] Instance KLaws {T} {RO : RingOps T} {W : NumLaws T} {m : Mode} {H : HashOrder} (k : kind) :
  StorageLaws T (store k T) :=
  match k return StorageLaws T (store k T) with
  | KDense => ArrLaws | KSparse => SpsLaws | KQuat => QLaws
  end.

(** Quaternion storage exists in dimension 2 only. *)
Definition supports (k : kind) (A : algebra) : Prop :=
  match k with KQuat => a_dim A = 2 | _ => True end.

(** *** Iterators: the results of the first n calls of [next] *)
Fixpoint nexts {m : Mode} (n : nat) (it : giter) : res (list (option N)) :=
  match n with
  | O => Ok []
  | S n => ' (r, it) <- gi_next it ;; rs <- nexts n it ;; Ok (r :: rs)
  end.

(** Value a list of (index, value) writes leaves at index i. *)
Definition last_write {T} {RO : RingOps T} (l : list (N * T)) (i : N) : T :=
  fold_left (fun v ic => if (fst ic =? i)%N then snd ic else v) l r0.

(** Two computations on possibly different storages succeed and have the same coefficients. *)
Definition same {T} {RO : RingOps T} {S S'} {St : Storage T S} {SL : StorageLaws T S}
  {St' : Storage T S'} {SL' : StorageLaws T S'} (A : algebra) (r : res S) (r' : res S') : Prop :=
  exists z z', r = Ok z /\ r' = Ok z' /\ valid A z /\ valid A z' /\
    forall i, (i < 2 ^ N.of_nat (a_dim A))%N -> mv_get_by_idx z i = mv_get_by_idx z' i.
