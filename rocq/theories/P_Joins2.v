(** C84 for the API. *)
From Verif Require Export P_Joins Spec_Joins.
Local Open Scope nat_scope.

Section Lists.
Context {T : Type} {RO : RingOps T} {L : RingLaws T} {CL : CommLaws T} {DV : DivOps T} {FL : FieldLaws T}.
Add Ring TrL : comm_ring_theory.
Variable n : nat.
Local Notation d := (S n).
Local Notation e := (pow2 n).
Local Notation pair a v := (suml (fun i => rmul (a (pow2 i)) (v (pow2 i))) (seq 0 (S n))).

(** The vector with a list of coefficients. *)
Definition lv (l : list T) (k : N) : T := suml (fun i => if (k =? pow2 i)%N then nth i l r0 else r0) (seq 0 d).
Lemma lv_vec l : is_vec n (lv l).
Proof. intros k Hk Hn. apply suml_0. intros i Hi. apply in_seq in Hi. destruct (N.eqb_spec k (pow2 i)) as [E|]; auto. exfalso. apply (Hn i); [lia|exact E]. Qed.
Lemma lv_nth l i : i < d -> lv l (pow2 i) = nth i l r0.
Proof.
  intros Hi. unfold lv. rewrite (suml_single _ _ i); [rewrite N.eqb_refl; reflexivity|apply seq_NoDup|apply in_seq; lia|].
  intros j Hj Hne. destruct (N.eqb_spec (pow2 i) (pow2 j)) as [X|]; [apply pow2_inj in X; congruence|reflexivity].
Qed.
Lemma lv_cs l : length l = d -> cs n (lv l) = l.
Proof.
  intros Hl. unfold cs. apply (list_nth_eq d); auto. intros i Hi. apply lv_nth; auto.
Qed.
Lemma lv_pt q : length q = n -> lv (q ++ [r1]) e = r1 /\ coords n (lv (q ++ [r1])) = q.
Proof.
  intros Hq. assert (E : lv (q ++ [r1]) e = r1) by (rewrite lv_nth by lia; rewrite app_nth2 by lia; rewrite Hq, Nat.sub_diag; reflexivity).
  split; auto. unfold coords. rewrite E. apply (list_nth_eq n); auto. intros i Hi. rewrite lv_nth by lia. rewrite app_nth1 by lia.
  apply div_unique; [apply one_neq_zero|]. ring.
Qed.
Lemma eq_scale a b q t : length q = n -> (forall i, i <= n -> nth i b r0 = rmul (nth i a r0) t) -> equation b q = rmul (equation a q) t.
Proof.
  intros Hq Hs. unfold equation. rewrite Hq, (Hs n) by lia. rewrite mul_add_l, suml_mul_r. f_equal. apply suml_ext. intros i Hi. apply in_seq in Hi. rewrite Hs by lia. ring.
Qed.
Lemma cs_nth (v : N -> T) i : i < d -> nth i (cs n v) r0 = v (pow2 i).
Proof. intros Hi. unfold cs. apply (nth_seq (fun i => v (pow2 i))). auto. Qed.
Lemma pair_ext_r (a u v : N -> T) : feq d u v -> pair a u = pair a v.
Proof. intros H. apply suml_ext. intros i Hi. apply in_seq in Hi. rewrite H by (apply pow2_lt; lia). reflexivity. Qed.
Lemma pair_sgb b (a u : N -> T) : pair a (fun k => sgb b (u k)) = sgb b (pair a u).
Proof. destruct b; cbn [sgb]; [|reflexivity]. rewrite <- suml_neg. apply suml_ext. intros. ring. Qed.
End Lists.

Section Fold.
Context {T : Type} {RO : RingOps T} {L : RingLaws T} {CL : CommLaws T}.
Variable A : algebra.
Local Notation d := (a_dim A).
Lemma fdual_feq (x y : N -> T) : feq d x y -> feq d (fdual A x) (fdual A y).
Proof. apply fdual_ext. Qed.
Lemma fdual_fmeet (f g : N -> T) : feq d (fdual A (fmeet A f g)) (gp d 0 (ones d) (fdual A f) (fdual A g)).
Proof. intros k Hk. unfold fmeet. rewrite fdual_fundual by auto. reflexivity. Qed.
Lemma fold_meet gs : forall f : N -> T, feq d (fdual A (fold_left (fmeet A) gs f)) (fwedge d (map (fdual A) (f :: gs))).
Proof.
  induction gs as [|g gs IH]; intros f k Hk; cbn [fold_left map fwedge].
  - rewrite gp_1_r by auto. reflexivity.
  - rewrite IH by auto. cbn [map fwedge]. rewrite (gp_ext d 0 (ones d) _ _ _ _ k Hk (fdual_fmeet f g) (feq_refl _ _)). apply gp_assoc. auto.
Qed.
End Fold.

Section API.
Context {T : Type} {RO : RingOps T} {L : RingLaws T} {CL : CommLaws T} {DV : DivOps T} {FL : FieldLaws T} {m : Mode} {H : HashOrder}.
Add Ring TrA : comm_ring_theory.
Variables (k : kind) (sg : list tok) (A : algebra) (n : nat).
Hypothesis HP : impl_pga sg = Some n.
Hypothesis D : declared sg A.
Hypothesis Hs : supports k A.
Hypothesis Hk : k <> KQuat.
Hypothesis two : radd (r1 : T) r1 <> r0.
Local Notation Sk := (store k T).
Local Notation e := (pow2 n).
Local Notation d := (S n).
Local Notation pair a v := (suml (fun i => rmul (a (pow2 i)) (v (pow2 i))) (seq 0 (S n))).

Lemma coeffs_cs (h : Sk) : coeffs n h = cs n (rd h).
Proof. unfold coeffs, cs. rewrite Nat.add_1_r. reflexivity. Qed.

Lemma foldM_meet (xs : list Sk) : forall (x : Sk) f, valid A x -> feq (a_dim A) (rd x) f -> Forall (valid A) xs ->
  gives A (foldM (k_meet k A) xs x) (fold_left (fmeet A) (map rd xs) f).
Proof.
  induction xs as [|y xs IH]; intros x f Hx Hf Hv; cbn [foldM map fold_left].
  - eapply gives_ext; [apply gives_Ok; auto|exact Hf].
  - pose proof (Forall_inv Hv). pose proof (Forall_inv_tail Hv). eapply gives_bind; [apply (h_kmeet A sg D k x y f (rd y)); auto using feq_refl|].
    intros z Hz Fz. apply IH; auto.
Qed.

Lemma vec_points (xs : list Sk) ps : Forall (is_point A n) xs -> mapM (pga_extract_point A n) xs = Ok ps ->
  exists vs, Forall (is_vec n) vs /\ Forall (fun v => v e <> r0) vs /\ Forall2 (fun x v => feq d (rd x) (fd n v)) xs vs /\ map (coords n) vs = ps.
Proof.
  revert ps. induction xs as [|x xs IH]; intros ps Hp Hm.
  - injection Hm as <-. exists []. auto.
  - pose proof (Forall_inv Hp) as Hx. pose proof (Forall_inv_tail Hp) as Hxs. destruct (point_vec k sg A n HP D x Hx) as (v & Vv & He & Ev).
    cbn [mapM] in Hm. rewrite (extract_vec k sg A n HP D x v (proj1 Hx) Vv He Ev) in Hm. cbn [bind] in Hm.
    destruct (mapM (pga_extract_point A n) xs) as [qs| |]; cbn [bind] in Hm; try discriminate. injection Hm as <-.
    destruct (IH qs Hxs eq_refl) as (vs & H1 & H2 & H3 & H4). exists (v :: vs). repeat split; [constructor; auto| | |]; try (constructor; auto). cbn [map]. rewrite H4. reflexivity.
Qed.

Lemma prop_scale (a J : N -> T) : (forall i j, i < d -> j < d -> rmul (a (pow2 i)) (J (pow2 j)) = rmul (a (pow2 j)) (J (pow2 i))) ->
  forall j0, j0 < d -> J (pow2 j0) <> r0 -> exists t, forall i, i < d -> a (pow2 i) = rmul t (J (pow2 i)).
Proof.
  intros Hp j0 Hj Hz. exists (rdiv (a (pow2 j0)) (J (pow2 j0))). intros i Hi. apply sub_eq0. apply (field_int _ (J (pow2 j0))); auto. transitivity (rsub (rmul (a (pow2 i)) (J (pow2 j0))) (rmul (rmul (rdiv (a (pow2 j0)) (J (pow2 j0))) (J (pow2 i))) (J (pow2 j0)))); [ring|]. apply sub_eq0.
  rewrite (Hp i j0) by auto. transitivity (rmul (rmul (rdiv (a (pow2 j0)) (J (pow2 j0))) (J (pow2 j0))) (J (pow2 i))); [rewrite div_mul by auto; reflexivity|ring].
Qed.

Lemma nz_rd (x : Sk) : valid A x -> (forall i, (i < pow2 d)%N -> rd x i = r0) -> mv_is_zero x = true.
Proof.
  intros Hx Hz. apply (is_zero_thm k A x Hx). intros i Hi. change ((i < pow2 (a_dim A))%N) in Hi. destruct (gives_Ok A x Hx) as (y & Ey & _ & Fy). injection Ey as <-.
  rewrite Fy by auto. rewrite Hz; auto. rewrite <- (Ad sg A n HP D). exact Hi.
Qed.
Lemma nz_vec (x : Sk) J : valid A x -> is_vec n J -> feq d (rd x) J -> mv_is_zero x = false -> exists i, i < d /\ J (pow2 i) <> r0.
Proof.
  intros Hx HJ R Hz. destruct (existsb (fun i => negb (ris0 (J (pow2 i)))) (seq 0 d)) eqn:E.
  - apply existsb_exists in E as (i & Hi & Hn). apply in_seq in Hi. exists i. split; [lia|]. intros X. apply is0_spec in X. rewrite X in Hn. discriminate.
  - exfalso. rewrite nz_rd in Hz; [discriminate|auto|]. intros i Hi. rewrite R by auto. destruct (Nat.eq_dec (popcount i) 1) as [Ep|Ep].
    + destruct (pop1 i Ep) as (j & ->). assert (Hj : j < d). { destruct (Nat.lt_ge_cases j d) as [|Hj]; [lia|]. exfalso. unfold pow2 in Hi. apply N.pow_lt_mono_r_iff in Hi; lia. }
      apply is0_spec. destruct (ris0 (J (pow2 j))) eqn:Ej; auto. rewrite <- not_true_iff_false in E. exfalso. apply E. apply existsb_exists. exists j. split; [apply in_seq; lia|rewrite Ej; reflexivity].
    + apply (proj1 (vec_homog n J) HJ); auto.
Qed.

(** The dual of a wedge of duals of points. *)
Lemma c84_join (x : Sk) xs ps : S (length xs) = n -> Forall (is_point A n) (x :: xs) -> mapM (pga_extract_point A n) (x :: xs) = Ok ps ->
  exists j, foldM (k_meet k A) xs x = Ok j /\ valid A j /\ of_grade A 1 j /\ Forall (fun p => equation (coeffs n j) p = r0) ps /\
    (mv_is_zero j = false -> forall a, length a = n + 1 -> Forall (fun p => equation a p = r0) ps -> exists t, a = map (rmul t) (coeffs n j)).
Proof.
  intros Hl Hp Hm. assert (HA := Ad sg A n HP D). destruct (vec_points (x :: xs) ps Hp Hm) as (vs & Vv & Nv & Fv & Cv).
  assert (Hval : Forall (valid A) (x :: xs)) by (eapply Forall_impl; [|exact Hp]; intros y Hy; apply Hy).
  destruct (foldM_meet xs x (rd x) (Forall_inv Hval) (feq_refl _ _) (Forall_inv_tail Hval)) as (j & Ej & Vj & Fj).
  exists j. split; [exact Ej|]. split; [exact Vj|].
  pose (us := map (fdual A) (rd x :: map rd xs)).
  assert (Hus : Forall2 (fun v u => feq d u (fun i => sgb (par (ones n)) (v i))) vs us).
  { unfold us. change (rd x :: map rd xs) with (map rd (x :: xs)). rewrite map_map. clear - HA Fv Vv L CL. induction Fv as [|y v ys vs' E _ IH]; cbn [map]; constructor.
    - intros i Hi. rewrite <- (fd2 A n HA v (Forall_inv Vv) i Hi). rewrite <- HA in Hi. unfold fdual, fd at 1. rewrite <- HA.
      rewrite E by (rewrite <- HA; apply cpl_lt). unfold cpl. rewrite HA. reflexivity.
    - apply IH. exact (Forall_inv_tail Vv). }
  assert (Hvu : vecs d us).
  { clear - Hus Vv L. revert Vv. induction Hus as [|v u vs' us' E _ IH]; intros Vv; constructor.
    - apply vec_homog. intros i Hi Hn. rewrite E by auto. rewrite (Forall_inv Vv) by auto. apply sgb_0.
    - apply IH. exact (Forall_inv_tail Vv). }
  assert (Hlu : length us = n) by (unfold us; cbn [map length]; rewrite !map_length; exact Hl).
  destruct (wedge_dual A n HA two us Hvu Hlu) as (J & HJ & EJ & PJ & UJ).
  assert (R : feq d (rd j) J).
  { intros i Hi. rewrite <- HA in Hi. unfold rd. rewrite Fj by auto. transitivity (fundual A (fdual A (fold_left (fmeet A) (map rd xs) (rd x))) i); [symmetry; apply fundual_fdual; auto|]. unfold fundual.
    rewrite (fold_meet A (map rd xs) (rd x)) by apply cpl_lt. fold us. rewrite HA. rewrite EJ by (rewrite <- HA; apply cpl_lt).
    rewrite <- (dual_fd A n HA J) by (rewrite <- HA; apply cpl_lt). rewrite <- HA. exact (fundual_fdual A J i Hi). }
  assert (Ec : coeffs n j = cs n J). { rewrite coeffs_cs. unfold cs. apply map_ext_in. intros i Hi. apply in_seq in Hi. apply R. apply pow2_lt. lia. }
  split. { intros i Hi Hpi. rewrite HA in Hi. rewrite R by auto. apply (proj1 (vec_homog n J) HJ); auto. }
  rewrite Ec. rewrite <- Cv. split.
  - clear - PJ Hus Nv L CL FL. revert PJ Nv. induction Hus as [|v u vs' us' E _ IH]; intros PJ Nv; cbn [map]; constructor.
    + pose proof (Forall_inv PJ) as P1. pose proof (Forall_inv Nv) as N1. cbv beta in P1, N1. rewrite (pair_comm n u J) in P1.
      rewrite (pair_ext_r n J u _ E), (pair_sgb n) in P1. apply sgb_eq0 in P1. rewrite <- (eq_coords n J v N1) in P1. apply (field_int _ _ P1 N1).
    + apply IH; [exact (Forall_inv_tail PJ)|exact (Forall_inv_tail Nv)].
  - intros Hz a Ha Heq. assert (Ha' : length a = d) by lia.
    assert (Hp0 : Forall (fun u => pair (lv n a) u = r0) us).
    { clear - Hus Nv Heq Ha' L CL FL. revert Nv Heq. induction Hus as [|v u vs' us' E _ IH]; intros Nv Heq; constructor.
      - pose proof (Forall_inv Heq) as P1. pose proof (Forall_inv Nv) as N1. cbv beta in P1, N1. rewrite (pair_ext_r n (lv n a) u _ E), (pair_sgb n).
        apply sgb_eq0. rewrite <- (eq_coords n (lv n a) v N1), lv_cs, P1 by auto. ring.
      - apply IH; [exact (Forall_inv_tail Nv)|exact (Forall_inv_tail Heq)]. }
    specialize (UJ (lv n a) (lv_vec n a) Hp0).
    assert (exists j0, j0 < d /\ J (pow2 j0) <> r0) as (j0 & Hj0 & Nz).
    { apply (nz_vec j J); auto. }
    destruct (prop_scale (lv n a) J UJ j0 Hj0 Nz) as (t & Ht). exists t.
    rewrite <- (lv_cs n a Ha') at 1. unfold cs. rewrite map_map. apply map_ext_in. intros i Hi. apply in_seq in Hi. apply Ht. lia.
Qed.
End API.

Section Real.
Context {T : Type} {RO : RingOps T} {L : RingLaws T} {CL : CommLaws T} {DV : DivOps T} {FL : FieldLaws T} {SQ : SqrtOps T} {SQL : SqrtLaws T} {FR : FormallyReal T} {m : Mode} {H : HashOrder}.
Add Ring TrR2 : comm_ring_theory.
Variables (k : kind) (sg : list tok) (A : algebra) (n : nat).
Hypothesis HP : impl_pga sg = Some n.
Hypothesis D : declared sg A.
Hypothesis Hs : supports k A.
Hypothesis Hk : k <> KQuat.
Local Notation Sk := (store k T).
Local Notation e := (pow2 n).
Local Notation d := (S n).
Local Notation pair a v := (suml (fun i => rmul (a (pow2 i)) (v (pow2 i))) (seq 0 (S n))).

Lemma all_planes (l : list (list T)) : Forall (fun a => length a = n + 1 /\ nonzero a) l ->
  exists hs : list Sk, mapM (pga_hyperplane A) l = Ok hs /\ Forall (valid A) hs /\ Forall (of_grade A 1) hs /\
    Forall2 (fun a h => forall q, length q = n -> (equation a q = r0 <-> equation (cs n (rd h)) q = r0)) l hs.
Proof.
  induction 1 as [|a l (Ha & Hn) _ IH]; [exists []; cbn; auto|]. rewrite Nat.add_1_r in Ha.
  destruct IH as (hs & E & Vh & Gh & Fh). destruct (plane_gives k sg A n HP D Hs a Ha Hn) as (v & Hv & Hc & (h & Eh & Hh & Ch)).
  set (t := rdiv r1 (pga_mag a)) in *. assert (Ht : t <> r0) by (apply inv_nz, mag_nz; auto).
  assert (Rh : feq d (rd h) v) by (intros j Hj; unfold rd; rewrite Ch by (rewrite (Ad sg A n HP D); exact Hj); reflexivity).
  exists (h :: hs). cbn [mapM]. rewrite Eh. cbn [bind]. rewrite E. cbn [bind]. split; [reflexivity|]. split; [constructor; auto|]. split.
  { constructor; auto. intros i Hi Hp. rewrite (Ad sg A n HP D) in Hi. rewrite Rh by auto. apply (proj1 (vec_homog n v) Hv); auto. }
  constructor; auto. intros q Hq. rewrite (eq_scale n a (cs n (rd h)) q t Hq).
  - split; intros X; [rewrite X; ring|apply (field_int _ _ X Ht)].
  - intros i Hi. rewrite cs_nth by lia. rewrite Rh by (apply pow2_lt; lia). apply Hc. lia.
Qed.

Lemma c84_intersection (l : list (list T)) : length l = n -> Forall (fun a => length a = n + 1 /\ nonzero a) l ->
  exists (hs : list Sk) x, mapM (pga_hyperplane A) l = Ok hs /\ prod_list (k_wedge k A) A hs = Ok x /\ valid A x /\ of_grade A n x /\
    (is_point A n x -> exists p, pga_extract_point A n x = Ok p /\ length p = n /\ forall q, length q = n -> (Forall (fun a => equation a q = r0) l <-> q = p)) /\
    (~ is_point A n x -> mv_is_zero x = false -> forall q, length q = n -> ~ Forall (fun a => equation a q = r0) l).
Proof.
  intros Hl Hp. assert (HA := Ad sg A n HP D). destruct (all_planes l Hp) as (hs & Eh & Vh & Gh & Qh). exists hs.
  assert (HD := supports_dim (T := T) sg A k D Hs).
  assert (Gs : gives A (prod_list (k_wedge k A) A hs) (fwedge (a_dim A) (map rd hs))).
  { rewrite <- fold_fwedge. apply prod_list_gives; auto. intros. apply (h_kwedge A sg D); auto. }
  destruct Gs as (x & Ex & Vx & Fx). exists x. split; auto. split; auto. split; auto.
  pose proof (vecs_of k A hs Gh) as Hvs. rewrite HA in Hvs.
  assert (Hlh : length (map rd hs) = n) by (rewrite map_length, <- Hl; clear - Qh; induction Qh; cbn [length]; auto).
  destruct (wedge_dual A n HA two_nz (map rd hs) Hvs Hlh) as (J & HJ & EJ & PJ & UJ).
  assert (R : feq d (rd x) (fd n J)).
  { intros i Hi. unfold rd. rewrite Fx by (rewrite HA; auto). rewrite HA. apply EJ; auto. }
  assert (Gx : of_grade A n x). { intros i Hi Hpi. rewrite HA in Hi. rewrite R by auto. apply fd_homog; auto. }
  split; auto.
  assert (Key : forall q, length q = n -> (Forall (fun a => equation a q = r0) l <-> Forall (fun u => pair u (lv n (q ++ [r1])) = r0) (map rd hs))).
  { intros q Hq. destruct (lv_pt n q Hq) as (E1 & E2). clear - Hq Qh E1 E2 L CL FL. induction Qh as [|a h l' hs' E _ IH]; cbn [map]; [split; constructor|].
    rewrite !Forall_cons_iff, IH. rewrite (E q Hq). rewrite <- (eq_coords n (rd h) (lv n (q ++ [r1]))) by (rewrite E1; apply one_neq_zero).
    rewrite E1, E2, mul_1_r. reflexivity. }
  assert (Uq : forall q, length q = n -> Forall (fun a => equation a q = r0) l -> forall i, i < d -> J (pow2 i) = rmul (nth i (q ++ [r1]) r0) (J e)).
  { intros q Hq X i Hi. apply Key in X; auto. assert (X' : Forall (fun u => pair (lv n (q ++ [r1])) u = r0) (map rd hs)).
    { eapply Forall_impl; [|exact X]. intros u Hu. cbv beta in *. rewrite (pair_comm n). exact Hu. }
    pose proof (UJ _ (lv_vec n (q ++ [r1])) X' i n Hi (Nat.lt_succ_diag_r n)) as Y. rewrite (proj1 (lv_pt n q Hq)), mul_1_l, lv_nth in Y by auto. auto. }
  split.
  - intros Hpt. assert (He : J e <> r0).
    { destruct Hpt as (_ & _ & Hw). rewrite (ones_pow n), R, fd_top in Hw by (pose proof (ones_lt n); rewrite pow2_S; lia). intros Z. apply Hw. rewrite Z. apply sgb_0. }
    exists (coords n J). split; [apply (extract_vec k sg A n HP D); auto|]. split; [apply coords_len|]. intros q Hq. split.
    + intros X. symmetry. unfold coords. apply (list_nth_eq n); auto. intros i Hi. apply div_unique; auto. rewrite (Uq q Hq X i) by lia. rewrite app_nth1 by lia. reflexivity.
    + intros ->. clear - PJ He Qh L CL FL. induction Qh as [|a h l' hs' E _ IH]; constructor.
      * apply E; [apply coords_len|]. pose proof (Forall_inv PJ) as P1. cbv beta in P1. rewrite <- (eq_coords n (rd h) J He) in P1. apply (field_int _ _ P1 He).
      * apply IH. exact (Forall_inv_tail PJ).
  - intros Hn Hz q Hq X. apply Hn. apply (vec_point k sg A n HP D x J); auto. intros He.
    assert (Z : mv_is_zero x = true); [|rewrite Z in Hz; discriminate]. apply (nz_rd k sg A n HP D); auto. intros i Hi. rewrite R by auto. unfold fd.
    assert (Z : forall j, (j < pow2 d)%N -> J j = r0).
    { intros j Hj. destruct (Nat.eq_dec (popcount j) 1) as [Ep|Ep]; [|apply (proj1 (vec_homog n J) HJ); auto].
      destruct (pop1 j Ep) as (j' & ->). assert (Hj' : j' < d). { destruct (Nat.lt_ge_cases j' d) as [|Hj']; [lia|]. exfalso. unfold pow2 in Hj. apply N.pow_lt_mono_r_iff in Hj; lia. }
      rewrite (Uq q Hq X j' Hj'), He. ring. }
    rewrite Z by (apply cmp_lt; auto). apply sgb_0.
Qed.
End Real.
