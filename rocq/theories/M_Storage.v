(** Model of src/coeff_storage.rs and of the quaternion storage of
    src/quaternion.rs. *)
From Verif Require Export RingDef M_Algebra.
Open Scope N_scope.

(** src/coeff_storage.rs:8-23 [trait CoeffStorage<T>: PartialEq + Clone].
    Values are immutable here: a [&mut self] method returns the new state.
    [st_enum] lists what [coeff_enumerate] yields, in order.
    [st_enum_mut f] is a [for (idx, c) in coeff_enumerate_mut() { *c = f(idx, c) }] loop. *)
Class Storage (T S : Type) := {
  st_new : nat -> res S;
  st_get : S -> N -> res T;
  st_set : S -> N -> T -> S;
  st_enum : S -> list (N * T);
  st_enum_mut : (N -> T -> T) -> S -> S;
  st_grade : S -> nat -> res (list (N * T));
  st_add : S -> S -> res S;
  st_sub : S -> S -> res S;
  st_eqb : S -> S -> bool
}.

(** [indexed_iter] / [iter().enumerate()] on a one-dimensional array. *)
Definition enumerate {T} (l : list T) : list (N * T) :=
  combine (map N.of_nat (seq 0 (length l))) l.

(** ** Dense storage *)

(** src/coeff_storage.rs:25-29 [struct ArrayStorage]; the [Array1] is a list. *)
Record arr (T : Type) := mkArr { arr_dim : nat; arr_data : list T }.
Arguments mkArr {T} _ _. Arguments arr_dim {T} _. Arguments arr_data {T} _.

Section Dense.
Context {T : Type} {RO : RingOps T} {m : Mode}.

(** src/coeff_storage.rs:35-40 [new].  [1 << dim] as in Rust; allocation always succeeds. *)
Definition arr_new (dim : nat) : res (arr T) :=
  n <- shl 1 dim ;; Ok (mkArr dim (repeat r0 (N.to_nat n))).

(** src/coeff_storage.rs:43-48 [get_by_idx]; note [idx > len]. *)
Definition arr_get (s : arr T) (idx : N) : res T :=
  if N.of_nat (length (arr_data s)) <? idx then Ok r0
  else nthr (arr_data s) (N.to_nat idx).

(** src/coeff_storage.rs:51-55 [set_by_idx]. *)
Definition arr_set (s : arr T) (idx : N) (v : T) : arr T :=
  if idx <? N.of_nat (length (arr_data s))
  then mkArr (arr_dim s) (upd (arr_data s) (N.to_nat idx) v) else s.

(** src/coeff_storage.rs:57-66 [coeff_enumerate]. *)
Definition arr_enum (s : arr T) : list (N * T) :=
  filter (fun ic => negb (ris0 (snd ic))) (enumerate (arr_data s)).

(** src/coeff_storage.rs:68-73 [coeff_enumerate_mut]. *)
Definition arr_enum_mut (f : N -> T -> T) (s : arr T) : arr T :=
  mkArr (arr_dim s)
    (map (fun ic => if negb (ris0 (snd ic)) then f (fst ic) (snd ic) else snd ic)
         (enumerate (arr_data s))).

(** src/coeff_storage.rs:75-80 [grade_enumerate] (zeros are not skipped). *)
Definition arr_grade (s : arr T) (grade : nat) : res (list (N * T)) :=
  l <- grade_iter_list (arr_dim s) grade ;;
  mapM (fun idx => c <- nthr (arr_data s) (N.to_nat idx) ;; Ok (idx, c)) l.

(** [&Array1 op &Array1] (ndarray): element-wise; unequal lengths panic.
    Simplification: ndarray would broadcast a length-1 array; lengths are always
    equal (2^dim) for multivectors of one algebra. *)
Definition arr_zip (f : T -> T -> T) (s t : arr T) : res (arr T) :=
  if Nat.eqb (length (arr_data s)) (length (arr_data t))
  then Ok (mkArr (arr_dim s) (map2 f (arr_data s) (arr_data t))) else Panic.

(** src/coeff_storage.rs:82-87 [add]. *)
Definition arr_add : arr T -> arr T -> res (arr T) := arr_zip radd.
(** src/coeff_storage.rs:89-94 [sub]. *)
Definition arr_sub : arr T -> arr T -> res (arr T) := arr_zip rsub.

(** Slice equality: same length and equal elements (ndarray [PartialEq]). *)
Fixpoint list_eqb (l1 l2 : list T) : bool :=
  match l1, l2 with
  | [], [] => true
  | x :: r, y :: r' => (reqb x y && list_eqb r r')%bool
  | _, _ => false
  end.

(** src/coeff_storage.rs:116-123 [PartialEq for ArrayStorage]. *)
Definition arr_eqb (s t : arr T) : bool := list_eqb (arr_data s) (arr_data t).

(** src/coeff_storage.rs:106-113 [from_array]; [ilog2] of 0 panics; [None] is [Err(())]. *)
Definition arr_from_array (a : list T) : res (option (arr T)) :=
  if Nat.eqb (length a) 0 then Panic
  else let dim := Nat.log2 (length a) in
       n <- shl 1 dim ;;
       if n =? N.of_nat (length a) then Ok (Some (mkArr dim a)) else Ok None.

(** src/coeff_storage.rs:31-95 [impl CoeffStorage for ArrayStorage]. *)
#[global] Instance ArrStorage : Storage T (arr T) := {|
  st_new := arr_new; st_get := arr_get; st_set := arr_set; st_enum := arr_enum;
  st_enum_mut := arr_enum_mut; st_grade := arr_grade; st_add := arr_add; st_sub := arr_sub;
  st_eqb := arr_eqb |}.
End Dense.

(** ** Sparse storage *)

(** The iteration order of [std::collections::HashMap]: an arbitrary function of
    the map's hasher seed and of its contents (here the list of entries, most
    recent insertion first), which returns the entries in some order.  [hm_seed]
    is the seed of a newly created map (RandomState::new). *)
Class HashOrder := {
  hm_seed : nat;
  hm_order : forall (T : Type), nat -> list (N * T) -> list (N * T);
  hm_order_perm : forall T seed (l : list (N * T)), Permutation l (hm_order T seed l)
}.

(** src/coeff_storage.rs:125-130 [struct SparseStorage]; the [HashMap] is an
    association list without repeated keys plus its hasher seed. *)
Record sps (T : Type) := mkSps {
  sps_dim : nat; sps_size : N; sps_seed : nat; sps_map : list (N * T) }.
Arguments mkSps {T} _ _ _ _. Arguments sps_dim {T} _. Arguments sps_size {T} _.
Arguments sps_seed {T} _. Arguments sps_map {T} _.

Section Sparse.
Context {T : Type} {RO : RingOps T} {m : Mode} {H : HashOrder}.

(** [HashMap::get]. *)
Fixpoint hm_get (l : list (N * T)) (k : N) : option T :=
  match l with
  | [] => None
  | (i, v) :: r => if i =? k then Some v else hm_get r k
  end.
(** [HashMap::remove]. *)
Definition hm_remove (l : list (N * T)) (k : N) : list (N * T) :=
  filter (fun iv => negb (fst iv =? k)) l.
(** [HashMap::insert]. *)
Definition hm_insert (l : list (N * T)) (k : N) (v : T) : list (N * T) :=
  (k, v) :: hm_remove l k.

(** src/coeff_storage.rs:136-142 [new]. *)
Definition sps_new (dim : nat) : res (sps T) :=
  n <- shl 1 dim ;; Ok (mkSps dim n hm_seed []).

(** src/coeff_storage.rs:144-146 [get_by_idx]. *)
Definition sps_get (s : sps T) (idx : N) : res T :=
  Ok (match hm_get (sps_map s) idx with Some v => v | None => r0 end).

(** src/coeff_storage.rs:148-156 [set_by_idx]. *)
Definition sps_set (s : sps T) (idx : N) (v : T) : sps T :=
  if idx <? sps_size s then
    mkSps (sps_dim s) (sps_size s) (sps_seed s)
      (if ris0 v then hm_remove (sps_map s) idx else hm_insert (sps_map s) idx v)
  else s.

(** src/coeff_storage.rs:158-163 [coeff_enumerate]. *)
Definition sps_enum (s : sps T) : list (N * T) := hm_order T (sps_seed s) (sps_map s).

(** src/coeff_storage.rs:165-170 [coeff_enumerate_mut]. *)
Definition sps_enum_mut (f : N -> T -> T) (s : sps T) : sps T :=
  mkSps (sps_dim s) (sps_size s) (sps_seed s)
        (map (fun iv => (fst iv, f (fst iv) (snd iv))) (sps_map s)).

(** src/coeff_storage.rs:172-178 [grade_enumerate]. [grade as u32] is exact for grades < 2^32. *)
Definition sps_grade (s : sps T) (grade : nat) : res (list (N * T)) :=
  Ok (filter (fun iv => Nat.eqb (popcount (fst iv)) grade) (sps_enum s)).

(** The two loops shared by [add] and [sub], src/coeff_storage.rs:180-189, 191-200. *)
Definition sps_zip (f : T -> T -> T) (s t : sps T) : res (sps T) :=
  ret <- sps_new (sps_dim s) ;;
  let ret := fold_left (fun r iv => sps_set r (fst iv) (snd iv)) (sps_enum s) ret in
  foldM (fun r iv => c <- sps_get r (fst iv) ;; Ok (sps_set r (fst iv) (f c (snd iv))))
        (sps_enum t) ret.
(** src/coeff_storage.rs:180-189 [add]. *)
Definition sps_add : sps T -> sps T -> res (sps T) := sps_zip radd.
(** src/coeff_storage.rs:191-200 [sub]. *)
Definition sps_sub : sps T -> sps T -> res (sps T) := sps_zip rsub.

(** One direction of src/coeff_storage.rs:208-210. *)
Definition sps_covers (s t : sps T) : bool :=
  forallb (fun iv => match sps_get t (fst iv) with Ok c => reqb c (snd iv) | _ => false end)
          (sps_enum s).
(** src/coeff_storage.rs:203-214 [PartialEq for SparseStorage]. *)
Definition sps_eqb (s t : sps T) : bool := (sps_covers s t && sps_covers t s)%bool.

(** src/coeff_storage.rs:132-201 [impl CoeffStorage for SparseStorage]. *)
#[global] Instance SpsStorage : Storage T (sps T) := {|
  st_new := sps_new; st_get := sps_get; st_set := sps_set; st_enum := sps_enum;
  st_enum_mut := sps_enum_mut; st_grade := sps_grade; st_add := sps_add; st_sub := sps_sub;
  st_eqb := sps_eqb |}.
End Sparse.

(** ** Quaternion storage *)

(** src/quaternion.rs:5-9 [struct QStorage { coeff: [T; 4] }]. *)
Record qst (T : Type) := mkQ { q_0 : T; q_1 : T; q_2 : T; q_3 : T }.
Arguments mkQ {T} _ _ _ _.
Arguments q_0 {T} _. Arguments q_1 {T} _. Arguments q_2 {T} _. Arguments q_3 {T} _.

Section Quat.
Context {T : Type} {RO : RingOps T}.

(** src/quaternion.rs:15-22 [new]. *)
Definition qst_new (dim : nat) : res (qst T) :=
  if negb (Nat.eqb dim 2) then Panic else Ok (mkQ r0 r0 r0 r0).

(** src/quaternion.rs:24-30 [get_by_idx]. *)
Definition qst_get (s : qst T) (idx : N) : res T :=
  Ok (match idx with 0 => q_0 s | 1 => q_1 s | 2 => q_2 s | 3 => q_3 s | _ => r0 end).

(** src/quaternion.rs:32-36 [set_by_idx]. *)
Definition qst_set (s : qst T) (idx : N) (v : T) : qst T :=
  match idx with
  | 0 => mkQ v (q_1 s) (q_2 s) (q_3 s)
  | 1 => mkQ (q_0 s) v (q_2 s) (q_3 s)
  | 2 => mkQ (q_0 s) (q_1 s) v (q_3 s)
  | 3 => mkQ (q_0 s) (q_1 s) (q_2 s) v
  | _ => s
  end.

(** src/quaternion.rs:38-43 [coeff_enumerate] (zeros are not skipped). *)
Definition qst_enum (s : qst T) : list (N * T) :=
  [(0, q_0 s); (1, q_1 s); (2, q_2 s); (3, q_3 s)].

(** src/quaternion.rs:45-52 [coeff_enumerate_mut]. *)
Definition qst_enum_mut (f : N -> T -> T) (s : qst T) : qst T :=
  mkQ (f 0 (q_0 s)) (f 1 (q_1 s)) (f 2 (q_2 s)) (f 3 (q_3 s)).

(** src/quaternion.rs:54-65 [grade_enumerate]. *)
Definition qst_grade (s : qst T) (grade : nat) : res (list (N * T)) :=
  Ok (filter (fun iv => Nat.eqb (popcount (fst iv)) grade) (qst_enum s)).

(** src/quaternion.rs:67-76 [add]. *)
Definition qst_add (s t : qst T) : res (qst T) :=
  Ok (mkQ (radd (q_0 s) (q_0 t)) (radd (q_1 s) (q_1 t))
          (radd (q_2 s) (q_2 t)) (radd (q_3 s) (q_3 t))).
(** src/quaternion.rs:78-87 [sub]. *)
Definition qst_sub (s t : qst T) : res (qst T) :=
  Ok (mkQ (rsub (q_0 s) (q_0 t)) (rsub (q_1 s) (q_1 t))
          (rsub (q_2 s) (q_2 t)) (rsub (q_3 s) (q_3 t))).

(** src/quaternion.rs:6 derived [PartialEq]: element-wise. *)
Definition qst_eqb (s t : qst T) : bool :=
  (reqb (q_0 s) (q_0 t) && reqb (q_1 s) (q_1 t) && reqb (q_2 s) (q_2 t) && reqb (q_3 s) (q_3 t))%bool.

(** src/quaternion.rs:11-88 [impl CoeffStorage for QStorage]. *)
#[global] Instance QStorage : Storage T (qst T) := {|
  st_new := qst_new; st_get := qst_get; st_set := qst_set; st_enum := qst_enum;
  st_enum_mut := qst_enum_mut; st_grade := qst_grade; st_add := qst_add; st_sub := qst_sub;
  st_eqb := qst_eqb |}.
End Quat.
