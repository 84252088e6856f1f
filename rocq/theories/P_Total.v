(** Every operation succeeds on valid multivectors, whatever the coefficients. *)
From Verif Require Export Spec_Float P_Props2.
Local Open Scope nat_scope.

Lemma foldM_total {X B} (P : B -> Prop) (f : B -> X -> res B) l b :
  (forall b x, P b -> In x l -> exists b', f b x = Ok b' /\ P b') -> P b -> exists b', foldM f l b = Ok b' /\ P b'.
Proof.
  revert b. induction l as [|x l IH]; intros b Hf Hb; cbn [foldM]; [eauto|].
  destruct (Hf b x Hb) as (b' & -> & Hb'); [left; auto|]. cbn [bind]. apply IH; auto.
  intros c y Hc Hy. apply Hf; auto. right. auto.
Qed.
Lemma fold_left_total {X B} (P : B -> Prop) (f : B -> X -> B) l b :
  (forall b x, P b -> P (f b x)) -> P b -> P (fold_left f l b).
Proof. intros Hf. revert b. induction l as [|x l IH]; intros b Hb; cbn [fold_left]; auto. Qed.

Section Total.
Context {T : Type} {RO : RingOps T} {W : NumLaws T} {m : Mode}.
Context {S : Type} {St : Storage T S} {SL : StorageLaws T S}.
Variable A : algebra.
Hypothesis AOK : alg_ok A.
Local Notation d := (a_dim A).
Local Notation Q := (a_imag A).
Local Notation P := (a_proj A).

Lemma gives_succeeds r (f : N -> T) : gives A (r : res S) f -> succeeds A r.
Proof. intros (z & E & Hz & _). exists z. auto. Qed.
Lemma s_bind {X} (r : res X) v (k : X -> res S) : r = Ok v -> succeeds A (k v) -> succeeds A (bind r k).
Proof. intros ->. auto. Qed.

Lemma accum_wf s (b : S) i c p : valid A b -> valid A (accum s b i c p).
Proof. intros Hb. destruct s; cbn [accum]; auto; apply st_set_ok; auto. Qed.

Lemma enum_lt (x : S) ic : valid A x -> In ic (st_enum x) -> (fst ic < pow2 d)%N.
Proof. intros Hx Hi. destruct ic as [i c]. apply (st_enum_ok d x Hx) in Hi. cbn [fst]. tauto. Qed.

Lemma s_default (x : S) : valid A x -> succeeds A (mv_default A : res S).
Proof. intros Hx. destruct (default_ok A (valid_dim A x Hx)) as (z & E & Hz & _). exists z. auto. Qed.

Lemma s_product (body : N * T -> S -> N * T -> res S) (x y : S) : valid A x -> valid A y ->
  (forall ia jb b, valid A b -> (fst ia < pow2 d)%N -> (fst jb < pow2 d)%N -> succeeds A (body ia b jb)) ->
  succeeds A (ret <- mv_default A ;; foldM (fun ret ia => foldM (body ia) (st_enum y) ret) (st_enum x) ret).
Proof.
  intros Hx Hy Hb. destruct (s_default x Hx) as (z & -> & Hz). cbn [bind].
  apply (foldM_total (fun b => valid A b)); auto. intros b ia Hv Hia.
  apply (foldM_total (fun b => valid A b)); auto. intros b' jb Hv' Hjb.
  apply Hb; auto; eapply enum_lt; [|eauto| |eauto]; auto.
Qed.

Lemma s_mul x y : valid A x -> valid A y -> succeeds A (mv_mul A x y).
Proof.
  intros Hx Hy. unfold mv_mul. apply s_product; auto. intros ia jb b Hb Hi Hj. cbv zeta.
  rewrite (st_get_ok d) by (auto using lxor_lt). cbn [bind].
  rewrite geo_sign_ok by (auto; pose proof (ok_dim A AOK); lia). cbn [bind].
  eexists. split; [reflexivity|]. apply accum_wf; auto.
Qed.
Lemma s_wedge x y : valid A x -> valid A y -> succeeds A (naive_wedge A x y).
Proof.
  intros Hx Hy. unfold naive_wedge. apply s_product; auto. intros ia jb b Hb Hi Hj. cbv zeta.
  rewrite (st_get_ok d) by (auto using lxor_lt). cbn [bind].
  rewrite wedge_sign_ok by (auto; pose proof (ok_dim A AOK); lia). cbn [bind].
  eexists. split; [reflexivity|]. apply accum_wf; auto.
Qed.
Lemma s_meet x y : valid A x -> valid A y -> succeeds A (naive_meet A x y).
Proof.
  intros Hx Hy. unfold naive_meet. apply (s_product (fun ia ret jb => _)); auto.
  intros ia jb b Hb Hi Hj. cbv zeta. rewrite (ok_cover A AOK).
  assert (Hc : forall i, (N.ldiff (ones d) i < pow2 d)%N) by (intros; apply (cpl_lt A)).
  rewrite !wedge_sign_ok by (auto using lxor_lt; pose proof (ok_dim A AOK); lia). cbn [bind].
  rewrite (st_get_ok d) by auto. cbn [bind].
  eexists. split; [reflexivity|]. apply accum_wf; auto.
Qed.

Lemma s_build (g : N -> T -> T) (x : S) : valid A x ->
  succeeds A (ret <- mv_default A ;; Ok (fold_left (fun r ic => st_set r (fst ic) (g (fst ic) (snd ic))) (st_enum x) ret)).
Proof.
  intros Hx. destruct (s_default x Hx) as (z & -> & Hz). cbn [bind]. eexists. split; [reflexivity|].
  apply (fold_left_total (fun b => valid A b)); auto. intros b ic Hb. apply st_set_ok; auto.
Qed.
Lemma s_scale x t : valid A x -> succeeds A (mv_scale A x t).
Proof. apply (s_build (fun _ c => rmul c t)). Qed.
Lemma s_divs {DV : DivOps T} x t : valid A x -> succeeds A (mv_divs A x t).
Proof. apply (s_build (fun _ c => rdiv c t)). Qed.
Lemma s_flip x : valid A x -> succeeds A (mv_flip A x).
Proof. apply (s_build (fun i c => if Nat.even (popcount i) then c else rneg c)). Qed.
Lemma s_flip_subspace x mask : valid A x -> succeeds A (mv_flip_subspace A x mask).
Proof. apply (s_build (fun i c => if Nat.even (popcount (N.land i mask)) then c else rneg c)). Qed.
Lemma s_rev x : valid A x -> succeeds A (mv_rev A x).
Proof. apply (s_build (fun i c => rev_c i c)). Qed.
Lemma s_revc {CJ : ConjOps T} x : valid A x -> succeeds A (mv_revc A x).
Proof.
  intros Hx. unfold mv_revc.
  destruct (from_indexed_ok A AOK (valid_dim A x Hx) (map (fun ic => (fst ic, rev_c (fst ic) (rconj (snd ic)))) (st_enum x)))
    as (z & E & Hz & _).
  - intros i c Hi. apply in_map_iff in Hi. destruct Hi as ([j b] & E & Hi). injection E as <- _.
    apply (enum_lt x (j, b) Hx Hi).
  - rewrite E. exists z. auto.
Qed.
Lemma s_one (x : S) : valid A x -> succeeds A (mv_one A : res S).
Proof. intros Hx. destruct (one_ok A (valid_dim A x Hx)) as (z & E & Hz & _). exists z. auto. Qed.
Lemma s_pow x n : valid A x -> succeeds A (mv_pow A x n).
Proof.
  intros Hx. unfold mv_pow.
  assert (G : forall fuel n, n < fuel -> succeeds A (mv_pow_fuel A fuel x n)); [|apply G; lia].
  clear n. induction fuel as [|fuel IH]; intros n Hn; [lia|]. cbn [mv_pow_fuel].
  destruct n as [|[|n]]; [apply (s_one x Hx)|exists x; auto|].
  set (k := Datatypes.S (Datatypes.S n)) in *. assert (Nat.div2 k < k) by (apply Nat.lt_div2; lia).
  destruct (IH (Nat.div2 k)) as (h & -> & Hh); [lia|]. cbn [bind].
  destruct (s_mul h h Hh Hh) as (hh & -> & Hhh). cbn [bind].
  destruct (Nat.even k); [exists hh; auto|apply s_mul; auto].
Qed.

Lemma s_get (y : S) i : valid A y -> (i < pow2 d)%N -> mv_get_by_idx y i = Ok (st_coef y i).
Proof. intros Hy Hi. apply (st_get_ok d); auto. Qed.
Lemma t_vsdot x y : valid A x -> valid A y -> exists v, mv_vsdot x y = Ok v.
Proof.
  intros Hx Hy. unfold mv_vsdot. destruct (foldM_total (fun _ => True) (fun r ic => c <- mv_get_by_idx y (fst ic) ;; Ok (radd r (rmul (snd ic) c))) (st_enum x) r0) as (v & E & _); eauto.
  intros b ic _ Hi. rewrite s_get by (eauto using enum_lt). cbn. eauto.
Qed.
Lemma t_vdot x y : valid A x -> valid A y -> exists v, mv_vdot A x y = Ok v.
Proof.
  intros Hx Hy. unfold mv_vdot. match goal with |- exists v, foldM ?f ?l ?b = _ =>
    destruct (foldM_total (fun _ : T => True) f l b) as (v & E & _); [|auto|eauto] end.
  intros b ic _ Hi. pose proof (enum_lt x ic Hx Hi). rewrite geo_sign_ok by (auto; pose proof (ok_dim A AOK); lia). cbn [bind].
  destruct (gsign _ _ _ _ _); rewrite ?s_get by auto; cbn; eauto.
Qed.
Lemma t_mag2 x : valid A x -> exists v, mv_mag2 A x = Ok v.
Proof.
  intros Hx. unfold mv_mag2. match goal with |- exists v, foldM ?f ?l ?b = _ =>
    destruct (foldM_total (fun _ : T => True) f l b) as (v & E & _); [|auto|eauto] end.
  intros b ic _ Hi. pose proof (enum_lt x ic Hx Hi). rewrite geo_sign_ok by (auto; pose proof (ok_dim A AOK); lia). cbn [bind].
  destruct (gsign _ _ _ _ _); rewrite ?s_get by auto; cbn; eauto.
Qed.
Lemma t_cmag2 {CJ : ConjOps T} x : valid A x -> exists v, mv_cmag2 A x = Ok v.
Proof.
  intros Hx. unfold mv_cmag2. destruct (s_revc x Hx) as (z & E & Hz). unfold mv_revc in E. rewrite E. cbn [bind].
  apply t_vdot; auto.
Qed.
Lemma s_revm {DV : DivOps T} x : valid A x -> succeeds A (mv_revm A x).
Proof.
  intros Hx. unfold mv_revm. destruct (s_rev x Hx) as (r & -> & Hr). destruct (t_mag2 x Hx) as (v & ->). cbn [bind].
  apply s_divs; auto.
Qed.
Lemma s_revcm {DV : DivOps T} {CJ : ConjOps T} x : valid A x -> succeeds A (mv_revcm A x).
Proof.
  intros Hx. unfold mv_revcm. destruct (s_revc x Hx) as (r & -> & Hr). destruct (t_cmag2 x Hx) as (v & ->). cbn [bind].
  apply s_divs; auto.
Qed.
Lemma t_approx {R} {NL : NormLt T R} (x y : S) (e : R) : valid A x -> valid A y -> exists b, mv_approx_eq x y e = Ok b.
Proof.
  intros Hx Hy. unfold mv_approx_eq. destruct (sub_ok A x y Hx Hy) as (z & -> & _). cbn [bind]. eauto.
Qed.
End Total.

Section TotalWedge.
Context {T : Type} {RO : RingOps T} {W : NumLaws T} {m : Mode}.

Lemma wedge_impl_total n : forall fuel (a b dest : list T), n < fuel ->
  length a = 2 ^ n -> length b = 2 ^ n -> length dest = 2 ^ n ->
  exists a' r, wedge_impl fuel a b dest = Ok (a', r) /\ length a' = 2 ^ n /\ length r = 2 ^ n.
Proof.
  induction n as [|n IH]; intros fuel a b dest Hf Ha Hb Hd; (destruct fuel as [|fuel]; [lia|]).
  - destruct a as [|a0 [|]]; cbn in Ha; try lia. destruct b as [|b0 [|]]; cbn in Hb; try lia.
    destruct dest as [|d0 [|]]; cbn in Hd; try lia. cbn. eauto.
  - cbn [wedge_impl]. assert (P1 := Npow2_pos_nat n).
    assert (H2 : length a = 2 * 2 ^ n) by (rewrite Ha; reflexivity).
    destruct (Nat.eqb_spec (length a) 1); [lia|]. rewrite H2, Nat.div2_double.
    destruct (halves a n Ha) as (a0 & a1 & -> & La0 & La1).
    destruct (halves b n Hb) as (b0 & b1 & -> & Lb0 & Lb1).
    destruct (halves dest n Hd) as (d0 & d1 & -> & Ld0 & Ld1).
    rewrite !split_at_app by auto. cbn [bind fst snd].
    destruct (IH fuel a1 b0 d1) as (a1' & r1 & -> & La1' & Lr1); auto; [lia|]. cbn [bind fst snd].
    destruct (IH fuel (flip_array a0) b1 d0) as (a0' & t & -> & La0' & Lt); auto; [lia|rewrite flip_array_length; auto|].
    cbn [bind fst snd]. rewrite acc_loop0 by congruence. cbn [bind fst snd].
    destruct (IH fuel (flip_array a0') b0 t) as (a0'' & r0' & -> & La0'' & Lr0); auto; [lia|rewrite flip_array_length; auto|].
    cbn [bind fst snd]. do 2 eexists. split; [reflexivity|].
    rewrite !app_length, length_map2. cbn [Nat.pow]. lia.
Qed.

Variable A : algebra.
Variable sg : list tok.
Hypothesis D : declared sg A.
Local Notation d := (a_dim A).

Lemma s_dense_wedge (x y : arr T) : valid A x -> valid A y -> succeeds A (dense_wedge A x y).
Proof.
  intros Hx Hy. unfold dense_wedge. destruct (Nat.ltb_spec d 6) as [H6|H6]; [apply (s_wedge A (declared_ok sg A D)); auto|].
  pose proof Hx as (Hd & Dx & Lx). pose proof Hy as (_ & Dy & Ly).
  destruct (arr_zero_len (T := T) A Hd) as (z & E & Dz & Lz). rewrite E. cbn [bind]. rewrite Lx.
  destruct (wedge_impl_total d (2 ^ d) (arr_data x) (arr_data y) (arr_data z)) as (a & r & -> & _ & Lr); auto.
  { apply Nat.pow_gt_lin_r. lia. }
  cbn [bind fst snd]. eexists. split; [reflexivity|]. split; [exact Hd|split; [exact Dz|exact Lr]].
Qed.
Lemma s_dense_meet (x y : arr T) : valid A x -> valid A y -> succeeds A (dense_meet A x y).
Proof.
  intros Hx Hy. unfold dense_meet. destruct (Nat.ltb_spec d 6) as [H6|H6]; [apply (s_meet A (declared_ok sg A D)); auto|].
  pose proof Hx as (Hd & Dx & Lx).
  destruct (arr_zero_len (T := T) A Hd) as (z & E & Dz & Lz). rewrite E. cbn [bind].
  destruct (gives_succeeds A _ _ (g_dual A sg D x Hx)) as (dx & -> & Hdx).
  destruct (gives_succeeds A _ _ (g_dual A sg D y Hy)) as (dy & -> & Hdy). cbn [bind].
  pose proof Hdx as (_ & _ & Ldx). pose proof Hdy as (_ & _ & Ldy). rewrite Ldx.
  destruct (wedge_impl_total d (2 ^ d) (arr_data dx) (arr_data dy) (arr_data z)) as (a & r & -> & _ & Lr); auto.
  { apply Nat.pow_gt_lin_r. lia. }
  cbn [bind fst snd]. eapply gives_succeeds. apply (g_undual A sg D).
  split; [exact Hd|split; [exact Dz|exact Lr]].
Qed.
End TotalWedge.
