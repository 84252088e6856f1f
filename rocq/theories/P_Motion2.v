(** C83 for the API. *)
From Verif Require Export P_Motion.
Local Open Scope nat_scope.

Section Trans.
Context {T : Type} {RO : RingOps T} {L : RingLaws T} {CL : CommLaws T}.
Variable n : nat.
Local Notation E := (ones n).
Local Notation e := (pow2 n).
Local Notation G := (gp (S n) 0 e).
Variables (v t : N -> T) (w : T) (u : nat -> T).
Hypothesis Hv : is_vec n v.
Hypothesis Ht : is_trans n t u.
Let Pf (k : N) : T := rmul (fd n v k) w.
Let X := G (G (frev t) Pf) t.
Lemma X_homog : homog (S n) n X.
Proof.
  intros k Hk Hp. destruct (N.ltb_spec k e) as [Hl|Hl].
  - unfold X, Pf. rewrite (X_low n v w t u Ht k Hl). rewrite (P_low n v w Hv k Hl). unfold del. destruct (N.eqb_spec k E) as [->|]; [|reflexivity]. rewrite popcount_ones in Hp. lia.
  - rewrite pow2_S in Hk. pose (j := (k - e)%N). assert (Hj : (j < e)%N) by (unfold j; lia). assert (Ek : k = (e + j)%N) by (unfold j; lia). rewrite Ek in *.
    assert (Hn : forall i, i < n -> N.lxor j E <> pow2 i).
    { intros i Hi EE. apply Hp. pose proof (popcount_lxor j E) as Hx. rewrite EE, popcount_pow2, land_ones_lt, popcount_ones in Hx by auto. rewrite popcount_add_pow2 by auto. lia. }
    assert (HP0 : Pf (e + j)%N = r0). { unfold Pf. rewrite (fd_homog n v Hv) by (auto; rewrite pow2_S; lia). apply mul_0_l. }
    assert (Hu : up n t (N.lxor j E) = r0) by (apply (t_up n t u); auto; apply lxor_lt; auto using ones_lt).
    unfold X. rewrite gp_S_high by auto.
    rewrite (gp_ext n _ _ (up n (G (frev t) Pf)) (up n (G (frev t) Pf)) t (del 0 r1)) by (auto using feq_refl; apply (t_low n _ _ Ht)). rewrite gp_1_r by auto.
    unfold up at 1. rewrite gp_S_high by auto.
    rewrite (gp_ext n _ _ (alpha (frev t)) (del 0 r1) (up n Pf) (up n Pf)) by (auto using feq_refl; apply alpha_del0; apply (rev_low n _ _ Ht)). rewrite gp_1_l.
    set (c := sgb (par E) (rmul (v e) w)).
    rewrite (gp_ext n _ _ (up n (frev t)) (fneg (up n t)) Pf (del E c)) by (first [apply (rev_up n _ _ Ht)|apply (P_low n v w Hv)|auto]). rewrite gp_neg_l, gp_del_r by auto using ones_lt.
    assert (Ea : feq n (alpha (G (frev t) Pf)) (del E (sgb (par E) c))).
    { intros i Hi. unfold alpha. rewrite (G_low n) by auto. rewrite (gp_ext n _ _ _ (del 0 r1) _ Pf) by (auto using feq_refl; eapply (rev_low n); eauto). rewrite gp_1_l.
      unfold Pf. rewrite (P_low n v w Hv) by auto. unfold del. destruct (N.eqb_spec i E) as [->|]; [reflexivity|apply sgb_0]. }
    rewrite (gp_ext n _ _ (alpha (G (frev t) Pf)) (del E (sgb (par E) c)) (up n t) (up n t)) by (auto using feq_refl). rewrite gp_del_l by auto using ones_lt.
    unfold up at 2. rewrite HP0. rewrite ?(N.lxor_comm E j), Hu. rewrite ?mul_0_l, ?mul_0_r, !act_0, neg_0, !add_0_r. reflexivity.
Qed.
End Trans.

Section API.
Context {T : Type} {RO : RingOps T} {L : RingLaws T} {CL : CommLaws T} {DV : DivOps T} {FL : FieldLaws T} {m : Mode} {H : HashOrder}.
Variables (k : kind) (sg : list tok) (A : algebra) (n : nat).
Hypothesis HP : impl_pga sg = Some n.
Hypothesis D : declared sg A.
Hypothesis Hs : supports k A.
Local Notation Sk := (store k T).
Local Notation e := (pow2 n).
Implicit Types p a : list T.

Lemma ones_pow : (2 ^ N.of_nat n - 1)%N = ones n.
Proof. change (pow2 n - 1 = ones n)%N. pose proof (ones_add1 n). lia. Qed.
Lemma point_vec (x : Sk) : is_point A n x -> exists v, is_vec n v /\ v e <> r0 /\ feq (S n) (rd x) (fd n v).
Proof.
  intros (Hx & Hg & Hw). rewrite ones_pow in Hw. destruct (dual_of n (rd x)) as (v & Hv & Ev).
  - intros i Hi Hp. apply Hg; auto. rewrite (Ad sg A n HP D). auto.
  - exists v. split; auto. split; auto. intros Z. apply Hw. rewrite Ev, fd_top, Z, sgb_0; auto. pose proof (ones_lt n). rewrite pow2_S. lia.
Qed.
Lemma vec_point (x : Sk) v : valid A x -> is_vec n v -> v e <> r0 -> feq (S n) (rd x) (fd n v) -> is_point A n x.
Proof.
  intros Hx Hv He Ev. split; auto. split.
  - intros i Hi Hp. rewrite (Ad sg A n HP D) in Hi. rewrite Ev by auto. apply fd_homog; auto.
  - rewrite ones_pow, Ev, fd_top by (pose proof (ones_lt n); rewrite pow2_S; lia). intros X. apply sgb_eq0 in X. auto.
Qed.
Lemma extract_vec (x : Sk) v : valid A x -> is_vec n v -> v e <> r0 -> feq (S n) (rd x) (fd n v) -> pga_extract_point A n x = Ok (coords n v).
Proof.
  intros Hx Hv He Ev. rewrite (extract_eq k sg A n HP D x _ Hx Ev). f_equal. unfold coords. apply map_ext_in. intros i Hi. apply in_seq in Hi.
  rewrite !fd_fd by (auto; lia). apply div_unique; [intros X; apply sgb_eq0 in X; auto|]. rewrite sgb_mul_r, div_mul by auto. reflexivity.
Qed.

(** ** Products of vectors *)
Hypothesis two : radd (r1 : T) r1 <> r0.
Lemma versor_point (vs : list Sk) s (q : T) x v : versor A vs s q -> valid A x -> is_vec n v -> v e <> r0 -> feq (S n) (rd x) (fd n v) ->
  exists y, transform A s x = Ok y /\ is_point A n y /\
    pga_extract_point A n y = Ok (fold_right (fun w p => reflected (cs n w) p) (coords n v) (map rd vs)).
Proof.
  intros Hv Hx Vv He Ev. destruct (versor_facts k sg A D Hs vs s q Hv) as (Vs & Hvs & _ & _ & Hq).
  rewrite <- (Ad sg A n HP D) in Ev. pose proof (h_sandwich k sg A D Hs vs s q x _ Hv Hx Ev) as G.
  rewrite (Ad sg A n HP D), (Ai sg A n HP D), (Ap sg A n HP D) in G, Hq. rewrite (Ad sg A n HP D) in Hvs.
  destruct (chain_coords n two (map rd vs) v Hvs Hq Vv He) as (v' & Hv' & He' & Ec & Cc).
  destruct G as (y & Ey & Hy & Fy). exists y. split; [exact Ey|].
  assert (R : feq (S n) (rd y) (fd n v')). { intros j Hj. unfold rd. rewrite Fy by (rewrite (Ad sg A n HP D); exact Hj). apply Ec. auto. }
  split; [apply (vec_point y v'); auto|]. rewrite <- Cc. apply extract_vec; auto.
Qed.
Lemma fold_len (ws : list (N -> T)) p : length (fold_right (fun w p => reflected (cs n w) p) p ws) = length p.
Proof. induction ws as [|w ws IH]; cbn [fold_right]; auto. rewrite reflect_len. auto. Qed.
Lemma fold_dist (ws : list (N -> T)) p q : vecs (S n) ws -> Forall (fun w => dotv (S n) 0 e w w <> r0) ws -> length p = n -> length q = n ->
  dist2 (fold_right (fun w p => reflected (cs n w) p) p ws) (fold_right (fun w p => reflected (cs n w) p) q ws) = dist2 p q.
Proof.
  induction ws as [|w ws IH]; intros Hv Hn Hp Hq; cbn [fold_right]; auto.
  pose proof (Forall_inv Hv) as Hw. pose proof (Forall_inv_tail Hv). pose proof (Forall_inv Hn) as Hz. pose proof (Forall_inv_tail Hn).
  rewrite (reflect_dist _ _ _ n); [apply IH; auto|rewrite fold_len; auto|rewrite fold_len; auto|].
  rewrite sq_cs; auto. apply vec_homog; auto.
Qed.
Lemma c83_motion (vs : list Sk) s (q : T) x y : versor A vs s q -> is_point A n x -> is_point A n y ->
  exists px py x' y' px' py', pga_extract_point A n x = Ok px /\ pga_extract_point A n y = Ok py /\
    transform A s x = Ok x' /\ transform A s y = Ok y' /\ is_point A n x' /\ is_point A n y' /\
    pga_extract_point A n x' = Ok px' /\ pga_extract_point A n y' = Ok py' /\ dist2 px' py' = dist2 px py.
Proof.
  intros Hv Hx Hy. destruct (point_vec x Hx) as (v & Vv & He & Ev). destruct (point_vec y Hy) as (w & Vw & Hf & Ew).
  destruct (versor_point vs s q x v Hv (proj1 Hx) Vv He Ev) as (x' & Ex & Px & Xx). destruct (versor_point vs s q y w Hv (proj1 Hy) Vw Hf Ew) as (y' & Ey & Py & Xy).
  exists (coords n v), (coords n w), x', y'. eexists. eexists. split; [apply extract_vec; auto; apply Hx|]. split; [apply extract_vec; auto; apply Hy|].
  split; [exact Ex|]. split; [exact Ey|]. split; [exact Px|]. split; [exact Py|]. split; [exact Xx|]. split; [exact Xy|].
  destruct (versor_facts k sg A D Hs vs s q Hv) as (_ & Hvs & _ & _ & Hq). rewrite (Ad sg A n HP D) in Hvs. rewrite (Ad sg A n HP D), (Ai sg A n HP D), (Ap sg A n HP D) in Hq.
  apply fold_dist; auto; apply coords_len.
Qed.
End API.

Section Real.
Context {T : Type} {RO : RingOps T} {L : RingLaws T} {CL : CommLaws T} {DV : DivOps T} {FL : FieldLaws T} {SQ : SqrtOps T} {SQL : SqrtLaws T} {FR : FormallyReal T} {m : Mode} {H : HashOrder}.
Add Ring TrR : comm_ring_theory.
Variables (k : kind) (sg : list tok) (A : algebra) (n : nat).
Hypothesis HP : impl_pga sg = Some n.
Hypothesis D : declared sg A.
Hypothesis Hs : supports k A.
Local Notation Sk := (store k T).
Local Notation e := (pow2 n).
Implicit Types p a : list T.

Lemma c83_point p : length p = n -> nonzero p -> exists x : Sk, pga_point A p = Ok x /\ is_point A n x.
Proof.
  intros Hl Hn. destruct (point_gives k sg A n HP D Hs p Hl Hn) as (v & Hv & Hc & H1 & (x & Ex & Hx & Fx)). exists x. split; [exact Ex|].
  set (w := rdiv r1 (pga_mag p)) in *. apply (vec_point k sg A n HP D x (fun j => rmul (v j) w)); auto.
  - intros j Hj Hj'. rewrite Hv by auto. apply mul_0_l.
  - rewrite H1, mul_1_l. apply inv_nz. apply mag_nz. auto.
  - intros j Hj. unfold rd. rewrite Fx by (rewrite (Ad sg A n HP D); exact Hj). unfold fd. apply sgb_mul_l.
Qed.
Lemma c83_points p : length p = n -> nonzero p -> exists x : Sk, pga_point A p = Ok x /\ is_point A n x /\ pga_extract_point A n x = Ok p.
Proof.
  intros Hl Hn. destruct (c83_point p Hl Hn) as (x & E & Px). exists x. split; auto. split; auto. pose proof (c48 k sg A n HP D Hs p Hl Hn) as X. rewrite E in X. exact X.
Qed.
Lemma nonzero_firstn i a : nonzero (firstn i a) -> nonzero a.
Proof. unfold nonzero. intros E. rewrite <- (firstn_skipn i a). apply Exists_app. auto. Qed.
Lemma firstn_sq a : length a = S n -> suml (fun i => rmul (nth i a r0) (nth i a r0)) (seq 0 n) = suml (fun c => rmul c c) (firstn n a).
Proof.
  intros Hl. assert (E : firstn n a = map (fun i => nth i a r0) (seq 0 n)).
  { symmetry. apply (list_nth_eq n); [rewrite firstn_length; lia|]. intros i Hi. rewrite <- (firstn_skipn n a) at 1. apply app_nth1. rewrite firstn_length. lia. }
  rewrite E, suml_map. reflexivity.
Qed.
Lemma sq_nz a : length a = S n -> nonzero (firstn n a) -> suml (fun i => rmul (nth i a r0) (nth i a r0)) (seq 0 n) <> r0.
Proof.
  intros Hl Hn. rewrite firstn_sq by auto. intros E. apply sum_sq in E. unfold nonzero in Hn. rewrite Exists_exists in Hn. rewrite Forall_forall in E. destruct Hn as (x & Hx & Hz). apply Hz, E, Hx.
Qed.
Lemma normp_nz (ws : list (N -> T)) : Forall (fun w => dotv (S n) 0 e w w <> r0) ws -> normp (S n) 0 e ws <> r0.
Proof.
  induction 1 as [|w ws Hw _ IH]; cbn [normp]; [apply one_neq_zero|]. intros X. apply IH. apply (field_int _ _ X Hw).
Qed.
Lemma planes (l : list (list T)) : Forall (fun a => length a = S n /\ nonzero (firstn n a)) l ->
  exists hs : list Sk, mapM (pga_hyperplane A) l = Ok hs /\ Forall (valid A) hs /\ Forall (of_grade A 1) hs /\ Forall (fun w => dotv (S n) 0 e w w <> r0) (map rd hs) /\
    forall p, length p = n -> fold_right (fun w p => reflected (cs n w) p) p (map rd hs) = fold_right reflected p l.
Proof.
  induction 1 as [|a l (Ha & Hn) _ IH]; [exists []; cbn; auto|].
  destruct IH as (hs & E & Vh & Gh & Nh & Fh). destruct (plane_gives k sg A n HP D Hs a Ha (nonzero_firstn n a Hn)) as (v & Hv & Hc & (h & Eh & Hh & Ch)).
  set (t := rdiv r1 (pga_mag a)) in *. assert (Ht : t <> r0) by (apply inv_nz, mag_nz, (nonzero_firstn n); auto).
  assert (Rh : feq (S n) (rd h) v) by (intros j Hj; unfold rd; rewrite Ch by (rewrite (Ad sg A n HP D); exact Hj); reflexivity).
  assert (Vr : is_vec n (rd h)) by (intros j Hj Hj'; rewrite Rh by auto; apply Hv; auto).
  assert (Nc : forall i, i <= n -> nth i (cs n (rd h)) r0 = rmul (nth i a r0) t).
  { intros i Hi. unfold cs. rewrite nth_seq by lia. rewrite Rh by (apply pow2_lt; lia). apply Hc. lia. }
  exists (h :: hs). cbn [mapM]. rewrite Eh. cbn [bind]. rewrite E. cbn [bind]. split; [reflexivity|]. split; [constructor; auto|]. split.
  { constructor; auto. intros i Hi Hp. rewrite (Ad sg A n HP D) in Hi. apply vec_homog in Vr. apply Vr; auto. }
  cbn [map]. split.
  - constructor; auto. rewrite <- sq_cs by auto. intros X. apply (sq_nz a Ha Hn). apply (field_int _ (rmul t t)); [|intros Y; apply Ht; apply (field_int _ _ Y Ht)].
    refine (eq_trans _ X). rewrite suml_mul_r. apply suml_ext. intros i Hi. apply in_seq in Hi. rewrite !Nc by lia. ring.
  - intros p Hp. cbn [fold_right]. rewrite Fh by auto. set (p' := fold_right reflected p l).
    assert (Hp' : length p' = n) by (unfold p'; clear -Hp; induction l; cbn [fold_right]; auto; rewrite reflect_len; auto).
    apply (reflect_scale _ _ _ t Ht); rewrite Hp'; auto. apply (sq_nz a Ha Hn).
Qed.
Lemma c83_reflections (l : list (list T)) (x : Sk) p : Forall (fun a => length a = S n /\ nonzero (firstn n a)) l -> is_point A n x -> pga_extract_point A n x = Ok p ->
  exists hs s y, mapM (pga_hyperplane A) l = Ok hs /\ prod_list (mv_mul A) A hs = Ok s /\ transform A s x = Ok y /\ is_point A n y /\
    pga_extract_point A n y = Ok (fold_right reflected p l).
Proof.
  intros Hl Hx Ep. destruct (planes l Hl) as (hs & E & Vh & Gh & Nh & Fh). destruct (point_vec k sg A n HP D x Hx) as (v & Vv & He & Ev).
  rewrite (extract_vec k sg A n HP D x v (proj1 Hx) Vv He Ev) in Ep. injection Ep as <-.
  assert (HD := supports_dim (T := T) sg A k D Hs).
  assert (Gs : gives A (prod_list (mv_mul A) A hs) (fprod (a_dim A) (a_imag A) (a_proj A) (map rd hs))).
  { rewrite <- fold_fprod. apply prod_list_gives; auto. intros. apply (h_mul A sg D); auto. }
  destruct Gs as (s & Es & Vs & Fs). pose proof (vecs_of k A hs Gh) as Hvs.
  assert (Em : mv_mag2 A s = Ok (normp (S n) 0 e (map rd hs))).
  { rewrite (v_mag2 A sg D s Vs). rewrite (Ad sg A n HP D), (Ai sg A n HP D), (Ap sg A n HP D) in *. f_equal.
    transitivity (gp (S n) 0 e (frev (fprod (S n) 0 e (map rd hs))) (fprod (S n) 0 e (map rd hs)) 0%N).
    - apply gp_ext; auto using pow2_pos; intros j Hj; unfold frev, rd; rewrite Fs; auto.
    - rewrite (rev_versor (S n) 0 e _ Hvs 0%N (pow2_pos _)), del_eq. reflexivity. }
  assert (Hv : versor A hs s (normp (S n) 0 e (map rd hs))) by (split; auto; split; auto; split; auto; split; auto; apply normp_nz; auto).
  destruct (versor_point k sg A n HP D Hs two_nz hs s _ x v Hv (proj1 Hx) Vv He Ev) as (y & Ey & Py & Xy). exists hs, s, y. rewrite Fh in Xy by apply coords_len. auto.
Qed.
Lemma c83_translation (x : Sk) p dd : length dd = n -> is_point A n x -> pga_extract_point A n x = Ok p ->
  exists t y, pga_translation A dd = Ok t /\ Spec_PGA.sandwich A t x = Ok y /\ is_point A n y /\ pga_extract_point A n y = Ok (vadd p dd).
Proof.
  intros Hl Hx Ep. destruct (point_vec k sg A n HP D x Hx) as (v & Vv & He & Ev).
  rewrite (extract_vec k sg A n HP D x v (proj1 Hx) Vv He Ev) in Ep. injection Ep as <-.
  destruct (trans_gives k sg A n HP D Hs dd ltac:(lia)) as (tf & Ht & (t & Et & Vt & Ft)). exists t.
  assert (G : gives A (Spec_PGA.sandwich A t x) (gp (S n) 0 e (gp (S n) 0 e (frev tf) (fun j => rmul (fd n v j) r1)) tf)).
  { unfold Spec_PGA.sandwich. assert (Rt : feq (a_dim A) (rd t) tf) by (intros j Hj; unfold rd; rewrite Ft; auto).
    assert (Rx : feq (a_dim A) (rd x) (fun j => rmul (fd n v j) r1)) by (rewrite (Ad sg A n HP D); intros j Hj; rewrite Ev by auto; rewrite mul_1_r; reflexivity).
    eapply gives_bind; [apply (h_rev A t tf Vt Rt)|]. intros r Hr Fr. eapply gives_bind; [apply (h_mul A sg D r x _ _ Hr (proj1 Hx) Fr Rx)|]. intros u Hu Fu.
    eapply gives_ext; [apply (h_mul A sg D u t _ _ Hu Vt Fu Rt)|]. intros j Hj. rewrite (Ad sg A n HP D), (Ai sg A n HP D), (Ap sg A n HP D). reflexivity. }
  destruct G as (y & Ey & Hy & Fy). exists y. split; [exact Et|]. split; [exact Ey|].
  assert (R : feq (S n) (rd y) (gp (S n) 0 e (gp (S n) 0 e (frev tf) (fun j => rmul (fd n v j) r1)) tf)) by (intros j Hj; unfold rd; rewrite Fy by (rewrite (Ad sg A n HP D); exact Hj); reflexivity).
  set (X := gp (S n) 0 e (gp (S n) 0 e (frev tf) (fun j => rmul (fd n v j) r1)) tf) in *.
  split.
  - split; auto. split.
    + intros i Hi Hp. rewrite (Ad sg A n HP D) in Hi. rewrite R by auto. apply (X_homog n v tf r1 _ Vv Ht); auto.
    + rewrite ones_pow. rewrite R by (pose proof (ones_lt n); rewrite pow2_S; lia). unfold X. rewrite (X_low n v r1 tf _ Ht) by apply ones_lt. rewrite mul_1_r, fd_top. intros Z. apply sgb_eq0 in Z. auto.
  - rewrite (extract_eq k sg A n HP D y _ Hy R). f_equal. apply list_nth_eq; [rewrite length_vadd; rewrite coords_len; auto|]. intros i Hi. unfold X.
    rewrite (X_extract n v r1 Vv tf _ Ht i Hi), (X_scale n v r1 Vv tf _ Ht), half_half, !mul_1_r. rewrite nth_vadd by (rewrite coords_len; auto). unfold coords. rewrite nth_seq by auto.
    apply div_unique; [intros Z; apply sgb_eq0 in Z; auto|]. rewrite sgb_mul_r. f_equal. rewrite mul_add_l, div_mul by auto. reflexivity.
Qed.

(** ** Incidence *)
Lemma wedge_zero (h x : Sk) (u v : N -> T) : k <> KQuat -> valid A h -> valid A x -> is_vec n u -> is_vec n v -> feq (S n) (rd h) u -> feq (S n) (rd x) (fd n v) ->
  exists z, k_wedge k A h x = Ok z /\ (mv_is_zero z = true <-> suml (fun i => rmul (u (pow2 i)) (v (pow2 i))) (seq 0 (S n)) = r0).
Proof.
  intros Hk Vh Vx Ha Hv Fh Fx. rewrite <- (Ad sg A n HP D) in Fh, Fx. destruct (h_kwedge A sg D k h x _ _ Hk Vh Vx Fh Fx) as (z & E & Vz & Fz). exists z. split; [exact E|].
  rewrite (Ad sg A n HP D) in Fz.
  rewrite (is_zero_thm k A z Vz). fold (pow2 (a_dim A)). rewrite (Ad sg A n HP D). split.
  - intros X. specialize (X _ (ones_lt (S n))). rewrite Fz in X by apply ones_lt. injection X as X. rewrite (wedge_vec_dual n u v _ Ha Hv (ones_lt _)), N.eqb_refl in X. apply sgb_eq0 in X. exact X.
  - intros X i Hi. rewrite Fz by auto. rewrite (wedge_vec_dual n u v i Ha Hv Hi), X, sgb_0. destruct (i =? ones (S n))%N; reflexivity.
Qed.
Lemma c83_incidence (x : Sk) p a : k <> KQuat -> is_point A n x -> pga_extract_point A n x = Ok p -> length a = S n -> nonzero a ->
  exists h z, pga_hyperplane A a = Ok h /\ k_wedge k A h x = Ok z /\ (mv_is_zero z = true <-> equation a p = r0) /\
  forall vs s q, versor A vs s q -> exists h' x' z', transform A s h = Ok h' /\ transform A s x = Ok x' /\ k_wedge k A h' x' = Ok z' /\ (mv_is_zero z' = true <-> equation a p = r0).
Proof.
  intros Hk Hx Ep Hl Hn. destruct (point_vec k sg A n HP D x Hx) as (v & Vv & He & Ev).
  rewrite (extract_vec k sg A n HP D x v (proj1 Hx) Vv He Ev) in Ep. injection Ep as <-.
  destruct (plane_gives k sg A n HP D Hs a Hl Hn) as (b & Hb & Hc & (h & Eh & Hh & Ch)).
  set (t := rdiv r1 (pga_mag a)) in *. assert (Ht : t <> r0) by (apply inv_nz, mag_nz; auto).
  assert (Rh : feq (S n) (rd h) b) by (intros j Hj; unfold rd; rewrite Ch by (rewrite (Ad sg A n HP D); exact Hj); reflexivity).
  destruct (wedge_zero h x b v Hk Hh (proj1 Hx) Hb Vv Rh Ev) as (z & Ez & Iz). exists h, z. split; [exact Eh|]. split; [exact Ez|].
  assert (Eq : suml (fun i => rmul (b (pow2 i)) (v (pow2 i))) (seq 0 (S n)) = r0 <-> equation a (coords n v) = r0).
  { rewrite <- (eq_coords n b v He). assert (X : equation (cs n b) (coords n v) = rmul (equation a (coords n v)) t).
    { unfold equation. rewrite coords_len, mul_add_l, suml_mul_r. unfold cs at 2. rewrite nth_seq, Hc by lia. f_equal. apply suml_ext. intros i Hi. apply in_seq in Hi. unfold cs. rewrite nth_seq, Hc by lia. ring. }
    rewrite X. split; [intros Y; apply (field_int _ _ (field_int _ _ Y He) Ht)|intros ->; rewrite !mul_0_l; reflexivity]. }
  split; [rewrite Iz; exact Eq|]. intros vs s q Hvs.
  destruct (versor_facts k sg A D Hs vs s q Hvs) as (Vs & Hw & _ & _ & Hq).
  pose proof (s_auto k sg A D Hs vs s q Hvs) as Fa. pose proof (s_ps k sg A D Hs two_nz vs s q Hvs) as Fp.
  assert (Rh' : feq (a_dim A) (rd h) b) by (rewrite (Ad sg A n HP D); exact Rh). assert (Rx' : feq (a_dim A) (rd x) (fd n v)) by (rewrite (Ad sg A n HP D); exact Ev).
  destruct (h_sandwich k sg A D Hs vs s q h b Hvs Hh Rh') as (h' & Eh' & Vh' & Fh'). destruct (h_sandwich k sg A D Hs vs s q x _ Hvs (proj1 Hx) Rx') as (x' & Ex' & Vx' & Fx').
  assert (Hb' : is_vec n (chain (a_dim A) (a_imag A) (a_proj A) (map rd vs) b)).
  { apply vec_homog. rewrite <- (Ad sg A n HP D). apply (au_vec _ _ _ _ Fa). rewrite (Ad sg A n HP D). apply vec_homog; auto. }
  pose proof (au_top A two_nz _ _ _ _ Fa Fp (gp (a_dim A) 0 (ones (a_dim A)) b (fd n v))) as Ft.
  rewrite (au_wedge _ _ _ two_nz _ Fa b (fd n v) _ (ones_lt _)) in Ft.
  rewrite (Ad sg A n HP D), (Ai sg A n HP D), (Ap sg A n HP D) in *.
  destruct (chain_coords n two_nz (map rd vs) v Hw Hq Vv He) as (v' & Hv' & _ & Ec & _).
  destruct (wedge_zero h' x' _ v' Hk Vh' Vx' Hb' Hv') as (z' & Ez' & Iz').
  { intros j Hj. unfold rd. rewrite Fh' by auto. reflexivity. }
  { intros j Hj. unfold rd. rewrite Fx' by auto. apply Ec. auto. }
  exists h', x', z'. split; [exact Eh'|]. split; [exact Ex'|]. split; [exact Ez'|]. rewrite Iz'. rewrite <- Eq.
  rewrite (gp_ext (S n) 0 (ones (S n)) _ _ _ (fd n v') _ (ones_lt _) (feq_refl _ _) Ec) in Ft.
  rewrite (wedge_vec_dual n _ v' _ Hb' Hv' (ones_lt _)), (wedge_vec_dual n b v _ Hb Vv (ones_lt _)), N.eqb_refl in Ft.
  split; intros Z; rewrite Z, !sgb_0 in Ft; [symmetry in Ft; apply sgb_eq0 in Ft|]; apply sgb_eq0 in Ft; exact Ft.
Qed.
End Real.
