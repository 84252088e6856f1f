(** Splitting a product along the highest generator:
    (x0 + e x1)(y0 + e y1) = (x0 y0 + e^2 x1~ y1) + e (x1 y0 + x0~ y1), where ~ is the grade involution. *)
From Verif Require Export P_Inv.
Local Open Scope nat_scope.

(** Square of generator n. *)
Definition gen_sq (Q P : N) (n : nat) : sign :=
  if N.testbit P (N.of_nat n) then Null else of_bool (N.testbit Q (N.of_nat n)).

Lemma land_top_low n a b : (a < pow2 n)%N -> (b < pow2 n)%N -> N.land (pow2 n + a) b = N.land a b.
Proof.
  intros Ha Hb. apply N.bits_inj. intros k. rewrite !N.land_spec, testbit_add_pow2 by auto.
  destruct (N.eqb_spec k (N.of_nat n)) as [->|]; auto. rewrite (testbit_high b n) by (auto; lia).
  rewrite !andb_false_r. reflexivity.
Qed.
Lemma land_top_top n a b : (a < pow2 n)%N -> (b < pow2 n)%N ->
  N.land (pow2 n + a) (pow2 n + b) = (pow2 n + N.land a b)%N.
Proof.
  intros Ha Hb. apply N.bits_inj. intros k.
  rewrite N.land_spec, !testbit_add_pow2, N.land_spec by (auto; apply land_lt_l; auto).
  destruct (k =? N.of_nat n)%N; reflexivity.
Qed.
Lemma land_add_pow2 n a M : (a < pow2 n)%N ->
  N.land (pow2 n + a) M = if N.testbit M (N.of_nat n) then (pow2 n + N.land a M)%N else N.land a M.
Proof.
  intros Ha. apply N.bits_inj. intros k. rewrite N.land_spec, testbit_add_pow2 by auto.
  destruct (N.testbit M (N.of_nat n)) eqn:E.
  - rewrite testbit_add_pow2 by (apply land_lt_l; auto). destruct (N.eqb_spec k (N.of_nat n)) as [->|].
    + rewrite E. reflexivity.
    + rewrite N.land_spec. reflexivity.
  - rewrite N.land_spec. destruct (N.eqb_spec k (N.of_nat n)) as [->|]; [|reflexivity].
    rewrite E, !andb_false_r. reflexivity.
Qed.

Section Signs.
Variables Q P : N.
Variable n : nat.
Variables a b : N.
Hypothesis Ha : (a < pow2 n)%N.
Hypothesis Hb : (b < pow2 n)%N.

Lemma gsign_00 : gsign (S n) Q P a b = gsign n Q P a b.
Proof. unfold gsign. rewrite beta_S_00 by auto. reflexivity. Qed.
Lemma gsign_10 : gsign (S n) Q P (pow2 n + a) b = gsign n Q P a b.
Proof. unfold gsign. rewrite beta_S_10, land_top_low by auto. reflexivity. Qed.
Lemma gsign_01 : gsign (S n) Q P a (pow2 n + b) = sign_mul (of_bool (par a)) (gsign n Q P a b).
Proof.
  unfold gsign. rewrite beta_S_01, (N.land_comm a), land_top_low, (N.land_comm b a) by auto.
  destruct (N.land (N.land a b) P =? 0)%N; [|rewrite sign_mul_null_r; reflexivity].
  rewrite sign_mul_of_bool. f_equal. rewrite xorb_assoc. reflexivity.
Qed.
Lemma gsign_11 : gsign (S n) Q P (pow2 n + a) (pow2 n + b) =
  sign_mul (gen_sq Q P n) (sign_mul (of_bool (par a)) (gsign n Q P a b)).
Proof.
  unfold gsign, gen_sq. rewrite beta_S_11, land_top_top, !land_add_pow2 by (auto; apply land_lt_l; auto).
  destruct (N.testbit P (N.of_nat n)).
  - rewrite sign_mul_null_l. destruct (N.eqb_spec (pow2 n + N.land (N.land a b) P)%N 0) as [E|]; [|reflexivity].
    pose proof (pow2_pos n). lia.
  - destruct (N.land (N.land a b) P =? 0)%N; [|rewrite !sign_mul_null_r; reflexivity].
    rewrite !sign_mul_of_bool. f_equal. destruct (N.testbit Q (N.of_nat n)).
    + rewrite par_add_pow2 by (apply land_lt_l, land_lt_l; auto).
      destruct (par a), (beta n a b), (par (N.land (N.land a b) Q)); reflexivity.
    + destruct (par a), (beta n a b), (par (N.land (N.land a b) Q)); reflexivity.
Qed.
End Signs.

Section Halving.
Context {T : Type} {RO : RingOps T} {L : RingLaws T}.
Variables Q P : N.
Variable n : nat.

(** The coefficients multiplying the highest generator. *)
Definition up (x : N -> T) (i : N) : T := x (pow2 n + i)%N.

Lemma lxor_top_l a k : (a < pow2 n)%N -> (k < pow2 n)%N -> N.lxor (pow2 n + a) k = (pow2 n + N.lxor a k)%N.
Proof.
  intros Ha Hk. rewrite !add_pow2_lxor by (auto using lxor_lt). rewrite N.lxor_assoc. reflexivity.
Qed.
Lemma lxor_top_r a k : (a < pow2 n)%N -> (k < pow2 n)%N -> N.lxor a (pow2 n + k) = (pow2 n + N.lxor a k)%N.
Proof. intros Ha Hk. rewrite N.lxor_comm, lxor_top_l, N.lxor_comm; auto. Qed.
Lemma lxor_top_top a k : (a < pow2 n)%N -> (k < pow2 n)%N -> N.lxor (pow2 n + a) (pow2 n + k) = N.lxor a k.
Proof.
  intros Ha Hk. rewrite !add_pow2_lxor by auto.
  rewrite (N.lxor_comm (pow2 n) a), N.lxor_assoc, <- (N.lxor_assoc (pow2 n)), N.lxor_nilpotent, N.lxor_0_l. reflexivity.
Qed.

Lemma gp_S_low x y k : (k < pow2 n)%N ->
  gp (S n) Q P x y k = radd (gp n Q P x y k) (act (gen_sq Q P n) (gp n Q P (alpha (up x)) (up y) k)).
Proof.
  intros Hk. unfold gp at 1. rewrite sumI_S. f_equal.
  - apply sumI_ext. intros i Hi. rewrite gsign_00; auto using lxor_lt.
  - unfold gp. rewrite act_sum. apply sumI_ext. intros i Hi.
    rewrite lxor_top_l, gsign_11 by (auto using lxor_lt). unfold alpha, up.
    rewrite sgb_mul_l, <- act_of_bool, !act_mul. f_equal.
    destruct (gen_sq Q P n), (gsign n Q P i (N.lxor i k)), (of_bool (par i)); reflexivity.
Qed.

Lemma gp_S_high x y k : (k < pow2 n)%N ->
  gp (S n) Q P x y (pow2 n + k)%N = radd (gp n Q P (up x) y k) (gp n Q P (alpha x) (up y) k).
Proof.
  intros Hk. unfold gp at 1. rewrite sumI_S, add_comm. f_equal.
  - apply sumI_ext. intros i Hi. rewrite lxor_top_top, gsign_10 by (auto using lxor_lt). reflexivity.
  - apply sumI_ext. intros i Hi.
    rewrite lxor_top_r, gsign_01 by (auto using lxor_lt). unfold alpha, up.
    rewrite sgb_mul_l, <- act_of_bool, act_mul. f_equal. apply sign_mul_comm.
Qed.
End Halving.

(** ** The recursive wedge of src/mv_dense.rs *)
Section WedgeImpl.
Context {T : Type} {RO : RingOps T} {W : NumLaws T} {L : RingLaws T} {m : Mode}.

(** Coefficient function of a list. *)
Definition lc (l : list T) (i : N) : T := nth (N.to_nat i) l r0.

Lemma lc_app_low n l0 l1 i : length l0 = 2 ^ n -> (i < pow2 n)%N -> lc (l0 ++ l1) i = lc l0 i.
Proof. intros Hl Hi. unfold lc. apply app_nth1. rewrite Hl. apply to_nat_lt_pow2; auto. Qed.
Lemma lc_app_high n l0 l1 i : length l0 = 2 ^ n -> lc (l0 ++ l1) (pow2 n + i)%N = lc l1 i.
Proof.
  intros Hl. unfold lc. rewrite app_nth2; rewrite Hl, N2Nat.inj_add, pow2_nat; [f_equal|]; lia.
Qed.

Lemma list_lc (l l' : list T) n : length l = 2 ^ n -> length l' = 2 ^ n -> feq n (lc l) (lc l') -> l = l'.
Proof.
  intros H1 H2 H. apply (list_ext r0); [congruence|]. intros i Hi.
  specialize (H (N.of_nat i)). unfold lc in H. rewrite Nat2N.id in H. apply H.
  rewrite <- of_nat_pow2. lia.
Qed.

Lemma flip_array_length (l : list T) : length (flip_array l) = length l.
Proof. unfold flip_array. rewrite map_length. apply length_enumerate. Qed.
Lemma flip_array_lc (l : list T) i : lc (flip_array l) i = alpha (lc l) i.
Proof.
  unfold lc, alpha, flip_array. destruct (Nat.lt_ge_cases (N.to_nat i) (length l)) as [H|H].
  - rewrite (nth_map_lt _ _ _ (N0, r0)) by (rewrite length_enumerate; auto).
    rewrite nth_enumerate, N2Nat.id by auto. cbn [fst snd]. reflexivity.
  - rewrite !nth_overflow by (rewrite ?map_length, ?length_enumerate; auto). symmetry. apply sgb_0.
Qed.

Lemma split_at_app (l0 l1 : list T) k : length l0 = k -> split_at (l0 ++ l1) k = Ok (l0, l1).
Proof.
  intros <-. unfold split_at. rewrite app_length. destruct (Nat.ltb_spec (length l0 + length l1) (length l0)); [lia|].
  rewrite firstn_app, skipn_app, firstn_all, skipn_all, Nat.sub_diag. cbn. rewrite app_nil_r. reflexivity.
Qed.

Lemma nth_lc l i (H : i < length l) : nthr l i = Ok (lc l (N.of_nat i)).
Proof. unfold lc. rewrite Nat2N.id. apply nthr_nth; auto. Qed.

(** The accumulation loop: adds tmp to dest and undoes the grade involution of a. *)
Lemma acc_loop l : forall k dd a, length dd = k + length l -> length a = k + length l ->
  foldM (fun da (ic : N * T) =>
      let '(d, a) := da in
      let i := N.to_nat (fst ic) in
      x <- nthr d i ;; d <- updr d i (radd x (snd ic)) ;;
      if Nat.odd (popcount (fst ic)) then
        y <- nthr a i ;; a <- updr a i (rneg y) ;; Ok (d, a)
      else Ok (d, a)) (combine (map N.of_nat (seq k (length l))) l) (dd, a)
  = Ok (firstn k dd ++ map2 radd (skipn k dd) l,
        firstn k a ++ map (fun ic => if Nat.odd (popcount (fst ic)) then rneg (snd ic) else snd ic)
                          (combine (map N.of_nat (seq k (length l))) (skipn k a))).
Proof.
  induction l as [|t l IH]; intros k dd a Hd Ha; cbn [length] in *.
  - cbn. f_equal. f_equal.
    + rewrite skipn_all2 by lia. cbn. rewrite app_nil_r, firstn_all2 by lia. reflexivity.
    + rewrite app_nil_r, firstn_all2 by lia. reflexivity.
  - cbn [seq map combine foldM fst snd]. rewrite Nat2N.id.
    assert (U : forall X (v : list X) x dv, k < length v ->
      upd v k x = firstn k v ++ x :: skipn (S k) v /\ skipn k v = nth k v dv :: skipn (S k) v).
    { clear. intros X v. revert k. induction v as [|y v IH]; intros [|k] x dv Hk; simpl in *; try lia; auto.
      destruct (IH k x dv ltac:(lia)) as [-> ->]. auto. }
    assert (FS : forall X (v : list X) x, k < length v -> firstn (S k) (firstn k v ++ x :: skipn (S k) v) = firstn k v ++ [x]
       /\ skipn (S k) (firstn k v ++ x :: skipn (S k) v) = skipn (S k) v).
    { clear. intros X v x Hk. rewrite firstn_app, skipn_app, firstn_firstn. rewrite firstn_length.
      replace (Nat.min (S k) k) with k by lia. replace (S k - Nat.min k (length v)) with 1 by lia.
      split; [reflexivity|]. rewrite skipn_all2 by (rewrite firstn_length; lia). reflexivity. }
    rewrite (nthr_nth dd k r0) by lia. cbn [bind]. unfold updr at 1.
    destruct (Nat.ltb_spec k (length dd)); [|lia]. cbn [bind].
    destruct (U _ dd (radd (nth k dd r0) t) r0) as [Eu Es]; [lia|]. rewrite Eu. rewrite Es. clear Eu Es.
    destruct (Nat.odd (popcount (N.of_nat k))) eqn:Eo.
    + rewrite (nthr_nth a k r0) by lia. cbn [bind]. unfold updr at 1.
      destruct (Nat.ltb_spec k (length a)); [|lia]. cbn [bind].
      destruct (U _ a (rneg (nth k a r0)) r0) as [Eu Es]; [lia|]. rewrite Eu. rewrite Es. clear Eu Es.
      rewrite IH by (rewrite app_length, firstn_length; cbn [length]; rewrite skipn_length; lia).
      destruct (FS _ dd (radd (nth k dd r0) t)) as [-> ->]; [lia|].
      destruct (FS _ a (rneg (nth k a r0))) as [-> ->]; [lia|].
      rewrite <- !app_assoc. cbn [map fst snd map2 app]. rewrite Eo. reflexivity.
    + cbn [bind]. destruct (U _ a (nth k a r0) r0) as [Eu Es]; [lia|]. rewrite Es.
      rewrite IH by (rewrite ?app_length, ?firstn_length; cbn [length]; rewrite ?skipn_length; lia).
      destruct (FS _ dd (radd (nth k dd r0) t)) as [-> ->]; [lia|].
      assert (Ea : firstn (S k) a = firstn k a ++ [nth k a r0]).
      { rewrite <- (firstn_skipn k a) at 1. rewrite Es, firstn_app, firstn_firstn.
        replace (Nat.min (S k) k) with k by lia. rewrite firstn_length. replace (S k - Nat.min k (length a)) with 1 by lia. reflexivity. }
      rewrite Ea, <- !app_assoc. cbn [map fst snd map2 app]. rewrite Eo. reflexivity.
Qed.

Lemma acc_loop0 tmp dd a : length dd = length tmp -> length a = length tmp ->
  foldM (fun da (ic : N * T) =>
      let '(d, a) := da in
      let i := N.to_nat (fst ic) in
      x <- nthr d i ;; d <- updr d i (radd x (snd ic)) ;;
      if Nat.odd (popcount (fst ic)) then
        y <- nthr a i ;; a <- updr a i (rneg y) ;; Ok (d, a)
      else Ok (d, a)) (enumerate tmp) (dd, a) = Ok (map2 radd dd tmp, flip_array a).
Proof.
  intros Hd Ha. unfold enumerate. rewrite (acc_loop tmp 0) by auto. cbn [firstn skipn app].
  unfold flip_array, enumerate. rewrite Ha. reflexivity.
Qed.

Lemma map2_lc f (l l' : list T) n i : length l = 2 ^ n -> length l' = 2 ^ n -> (i < pow2 n)%N ->
  lc (map2 f l l') i = f (lc l i) (lc l' i).
Proof.
  intros H1 H2 Hi. apply to_nat_lt_pow2 in Hi. unfold lc. apply nth_map2; lia.
Qed.

Local Notation wpn n := (gp n 0 (ones n)).

Lemma ones_irrel d M x y k : (k < pow2 d)%N -> d <= M -> gp d 0 (ones M) x y k = wpn d x y k.
Proof.
  intros Hk Hd. apply sumI_ext. intros i Hi. f_equal. unfold gsign.
  assert (E : forall e, d <= e -> N.land (N.land i (N.lxor i k)) (ones e) = N.land i (N.lxor i k)).
  { intros e He. apply land_ones_lt. eapply N.lt_le_trans; [apply land_lt_l; exact Hi|]. apply pow2_le; auto. }
  rewrite !E by lia. reflexivity.
Qed.

Lemma wp_low n x y k : (k < pow2 n)%N -> wpn (S n) x y k = wpn n x y k.
Proof.
  intros Hk. rewrite gp_S_low by auto. unfold gen_sq. rewrite testbit_ones.
  replace (N.of_nat n <? N.of_nat (S n))%N with true by (symmetry; apply N.ltb_lt; lia).
  cbn [act]. rewrite add_0_r. apply ones_irrel; auto; lia.
Qed.
Lemma wp_high n x y k : (k < pow2 n)%N ->
  wpn (S n) x y (pow2 n + k)%N = radd (wpn n (up n x) y k) (wpn n (alpha x) (up n y) k).
Proof. intros Hk. rewrite gp_S_high by auto. rewrite !(ones_irrel n (S n)) by (auto; lia). reflexivity. Qed.

Lemma halves (l : list T) n : length l = 2 ^ S n -> exists l0 l1, l = l0 ++ l1 /\ length l0 = 2 ^ n /\ length l1 = 2 ^ n.
Proof.
  intros H. exists (firstn (2 ^ n) l), (skipn (2 ^ n) l). rewrite firstn_skipn. cbn [Nat.pow] in H.
  rewrite firstn_length, skipn_length. split; [auto|lia].
Qed.

Lemma wedge_impl_ok n : forall fuel a b dest, n < fuel ->
  length a = 2 ^ n -> length b = 2 ^ n -> length dest = 2 ^ n ->
  exists r, wedge_impl fuel a b dest = Ok (a, r) /\ length r = 2 ^ n /\ feq n (lc r) (wpn n (lc a) (lc b)).
Proof.
  induction n as [|n IH]; intros fuel a b dest Hf Ha Hb Hd; (destruct fuel as [|fuel]; [lia|]).
  - destruct a as [|a0 [|]]; cbn in Ha; try lia. destruct b as [|b0 [|]]; cbn in Hb; try lia.
    destruct dest as [|d0 [|]]; cbn in Hd; try lia. cbn. exists [rmul a0 b0]. split; [reflexivity|].
    split; [reflexivity|]. intros k Hk. unfold pow2 in Hk. assert (k = 0%N) as -> by (cbn in Hk; lia).
    unfold gp. rewrite sumI_O. reflexivity.
  - cbn [wedge_impl]. assert (P1 := Npow2_pos_nat n).
    assert (H2 : length a = 2 * 2 ^ n) by (rewrite Ha; reflexivity).
    destruct (Nat.eqb_spec (length a) 1); [lia|]. rewrite H2, Nat.div2_double.
    destruct (halves a n Ha) as (a0 & a1 & -> & La0 & La1).
    destruct (halves b n Hb) as (b0 & b1 & -> & Lb0 & Lb1).
    destruct (halves dest n Hd) as (d0 & d1 & -> & Ld0 & Ld1).
    rewrite !split_at_app by auto. cbn [bind fst snd].
    destruct (IH fuel a1 b0 d1) as (r1 & -> & Lr1 & C1); auto; [lia|]. cbn [bind fst snd].
    destruct (IH fuel (flip_array a0) b1 d0) as (t & -> & Lt & Ct); auto; [lia|rewrite flip_array_length; auto|].
    cbn [bind fst snd]. rewrite acc_loop0 by (rewrite ?flip_array_length; congruence). cbn [bind fst snd].
    assert (FF : flip_array (flip_array a0) = a0).
    { apply (list_lc _ _ n); rewrite ?flip_array_length; auto. intros i Hi. rewrite flip_array_lc.
      unfold alpha. rewrite flip_array_lc. apply alpha_invol. }
    rewrite FF. destruct (IH fuel a0 b0 t) as (r0' & -> & Lr0 & C0); auto; [lia|]. cbn [bind fst snd].
    exists (r0' ++ map2 radd r1 t). split; [reflexivity|].
    split; [rewrite app_length, length_map2; cbn [Nat.pow]; lia|].
    intros k Hk. destruct (index_split n k Hk) as [Hk'|(k' & Hk' & ->)].
    + rewrite (lc_app_low n), wp_low, C0 by auto. apply gp_ext; auto; intros i Hi; symmetry; apply (lc_app_low n); auto.
    + rewrite (lc_app_high n), (map2_lc _ _ _ n), wp_high, C1, Ct by auto. f_equal; apply gp_ext; auto; intros i Hi.
      * symmetry. unfold up. apply lc_app_high; auto.
      * symmetry. apply (lc_app_low n); auto.
      * rewrite flip_array_lc. unfold alpha. rewrite (lc_app_low n) by auto. reflexivity.
      * symmetry. unfold up. apply lc_app_high; auto.
Qed.

Lemma lc_arr (x : arr T) : lc (arr_data x) = arr_coef x.
Proof. reflexivity. Qed.

Variable A : algebra.
Variable sg : list tok.
Hypothesis D : declared sg A.
Local Notation d := (a_dim A).

Lemma arr_zero_len : d < 64 -> exists z : arr T, mv_zero A = Ok z /\ arr_dim z = d /\ length (arr_data z) = 2 ^ d.
Proof.
  intros Hd. destruct (default_ok (SL := ArrLaws) A Hd) as (z & E & (_ & H1 & H2) & _).
  exists z. auto.
Qed.

Lemma dense_wedge_ok (x y : arr T) : valid A x -> valid A y ->
  gives A (dense_wedge A x y) (wpn d (rd x) (rd y)).
Proof.
  intros Hx Hy. unfold dense_wedge. destruct (Nat.ltb_spec d 6) as [H6|H6]; [apply (g_wedge A sg); auto|].
  pose proof Hx as (Hd & Dx & Lx). pose proof Hy as (_ & Dy & Ly).
  destruct (arr_zero_len Hd) as (z & E & Dz & Lz). rewrite E. cbn [bind]. rewrite Lx.
  destruct (wedge_impl_ok d (2 ^ d) (arr_data x) (arr_data y) (arr_data z)) as (r & -> & Lr & Cr); auto.
  { apply Nat.pow_gt_lin_r. lia. }
  cbn [bind fst snd]. apply gives_iff. eexists. split; [reflexivity|].
  split; [split; [exact Hd|split; [exact Dz|exact Lr]]|].
  intros k Hk. cbn [st_coef ArrLaws]. unfold arr_coef. cbn [arr_data]. change (nth (N.to_nat k) r r0) with (lc r k).
  rewrite Cr by auto. apply gp_ext; auto; apply feq_sym; [exact (rd_feq d x Hx)|exact (rd_feq d y Hy)].
Qed.
End WedgeImpl.
