(** Meets of hyperplanes and joins of points. *)
From Verif Require Export P_Motion2.
Local Open Scope nat_scope.

Section Fun.
Context {T : Type} {RO : RingOps T} {L : RingLaws T} {CL : CommLaws T} {DV : DivOps T} {FL : FieldLaws T}.
Add Ring TrJ : comm_ring_theory.
Variables (A : algebra) (n : nat).
Hypothesis Hd : a_dim A = S n.
Local Notation d := (S n).
Local Notation e := (pow2 n).
Local Notation wp := (gp (S n) 0 (ones (S n))).
Local Notation dot := (dotv (S n) 0 0).
Local Notation pair a v := (suml (fun i => rmul (a (pow2 i)) (v (pow2 i))) (seq 0 (S n))).
Local Open Scope rg_scope.
Hypothesis two : (1 + 1 : T) <> 0.
Implicit Types a u v J : N -> T.

Lemma dot_pair a v : is_vec n a -> dot a v = pair a v.
Proof.
  intros Ha. unfold dotv, gp. rewrite sumI_vec.
  - apply suml_ext. intros i Hi. apply in_seq in Hi. rewrite N.lxor_0_r. unfold gsign. rewrite !N.land_0_r. cbn [N.eqb negb].
    rewrite beta_self, popcount_pow2 by (apply pow2_lt; lia). reflexivity.
  - intros j Hj Hn. rewrite Ha, mul_0_l by auto. apply act_0.
Qed.
Lemma pair_comm a v : pair a v = pair v a.
Proof. apply suml_ext. intros i _. ring. Qed.

(** A repeated factor. *)
Lemma wp_00 a u : is_vec n a -> is_vec n u -> dotv d 0 (ones d) a u = 0.
Proof.
  intros Ha Hu. apply vec_homog in Ha, Hu. unfold dotv. apply (homog_wp d 1 1 a u Ha Hu); [apply pow2_pos|]. cbn. lia.
Qed.
Lemma wp_rep a us : is_vec n a -> vecs d us -> In a us -> feq d (wp a (fwedge d us)) (fun _ => 0).
Proof.
  intros Ha. induction us as [|u us IH]; intros Hv Hin; [contradiction|]. cbn [fwedge]. pose proof (Forall_inv Hv) as Hu. pose proof (Forall_inv_tail Hv) as Hus.
  pose proof (proj1 (vec_homog n a) Ha) as Ha'. intros k Hk. rewrite <- gp_assoc by auto. destruct Hin as [->|Hin].
  - rewrite (gp_ext d 0 (ones d) _ (del 0 0) _ (fwedge d us)); auto using feq_refl; [rewrite gp_scalar_l; ring|].
    intros i Hi. rewrite (vec_sq d 0 (ones d) a Ha' i Hi), wp_00 by auto. reflexivity.
  - rewrite (gp_ext d 0 (ones d) _ (fneg (wp u a)) _ (fwedge d us)); auto using feq_refl.
    + rewrite gp_neg_l, gp_assoc by auto. rewrite (gp_ext d 0 (ones d) u u _ (fun _ => 0) k Hk (feq_refl _ _) (IH Hus Hin)). rewrite gp_0_r. ring.
    + apply vec_anti; auto. apply wp_00; auto. apply vec_homog; auto.
Qed.

Lemma lc_fwedge a us : is_vec n a -> vecs d us -> Forall (fun u => pair a u = 0) us -> feq d (lc A a (fwedge d us)) (fun _ => 0).
Proof.
  intros Ha. pose proof (proj1 (vec_homog n a) Ha) as Ha'. induction us as [|u us IH]; intros Hv Hz; cbn [fwedge].
  - rewrite <- Hd in *. apply lc_one. auto.
  - pose proof (Forall_inv Hv) as Hu. pose proof (Forall_inv_tail Hv) as Hus. pose proof (Forall_inv Hz) as Hp. pose proof (Forall_inv_tail Hz) as Hps.
    intros k Hk. specialize (IH Hus Hps).
    assert (E : lc A a (wp u (fwedge d us)) k = (dot a u + dot a u) * fwedge d us k - wp u (lc A a (fwedge d us)) k).
    { rewrite <- Hd in *. apply lc_wedge; auto. }
    rewrite E, dot_pair, Hp by auto. rewrite (gp_ext d 0 (ones d) u u _ (fun _ => 0) k Hk (feq_refl _ _) IH). rewrite gp_0_r. ring.
Qed.

Lemma fd2 v : is_vec n v -> feq d (fd n (fd n v)) (fun k => sgb (par (ones n)) (v k)).
Proof.
  intros Hv k Hk. destruct (Nat.eq_dec (popcount k) 1) as [E|E].
  - destruct (pop1 k E) as (i & ->). apply fd_fd; auto. destruct (Nat.lt_ge_cases i d) as [|Hi]; [lia|]. exfalso. unfold pow2 in Hk. apply N.pow_lt_mono_r_iff in Hk; lia.
  - pose proof (proj1 (vec_homog n v) Hv) as Hv'. rewrite (Hv' k Hk E), sgb_0. unfold fd at 1. rewrite (fd_homog n v Hv); [apply sgb_0|apply cmp_lt; auto|]. pose proof (pop_ldiff n k Hk). lia.
Qed.
Lemma dual_fd (x : N -> T) : feq d (fdual A x) (fd n x).
Proof. intros k Hk. unfold fdual, fd, cpl. rewrite Hd. reflexivity. Qed.

Lemma prop_wedge a J : is_vec n a -> is_vec n J -> feq d (wp a J) (fun _ => 0) -> forall i j, i < d -> j < d -> a (pow2 i) * J (pow2 j) = a (pow2 j) * J (pow2 i).
Proof.
  intros Ha HJ Hz i j Hi Hj. set (c := fun k : N => if (k =? pow2 i)%N then 1 else 0 : T).
  assert (Hc : is_vec n c) by (intros k Hk Hk'; unfold c; destruct (N.eqb_spec k (pow2 i)) as [->|]; auto; exfalso; apply (Hk' i Hi); reflexivity).
  assert (Pc : forall z, pair c z = z (pow2 i)) by (intros z; exact (pair_inj n z i Hi)).
  pose proof (proj1 (vec_homog n a) Ha) as Ha'. pose proof (proj1 (vec_homog n J) HJ) as HJ'. pose proof (proj1 (vec_homog n c) Hc) as Hc'.
  assert (Hk : (pow2 j < pow2 d)%N) by (apply pow2_lt; auto).
  assert (E : lc A c (wp a J) (pow2 j) = (dot c a + dot c a) * J (pow2 j) - wp a (lc A c J) (pow2 j)) by (rewrite <- Hd in *; apply lc_wedge; auto).
  assert (EJ : feq d (lc A c J) (del 0 (dot c J + dot c J))).
  { intros k Hk'. rewrite <- Hd in *. rewrite <- (vec_sum A c J Hc' HJ' k Hk'). unfold lc, fsub, fadd.
    rewrite (gp_ext _ 0 0 (alpha J) (fneg J) c c k) by (auto using feq_refl, alpha_vec). rewrite gp_neg_l. ring. }
  rewrite (gp_ext d 0 (ones d) a a _ _ (pow2 j) Hk (feq_refl _ _) EJ) in E. rewrite gp_scalar_r in E by auto.
  rewrite !dot_pair, !Pc in E by auto.
  assert (Z : lc A c (wp a J) (pow2 j) = 0).
  { transitivity (lc A c (del 0 0) (pow2 j)); [|rewrite <- Hd in *; apply lc_one; auto].
    rewrite <- Hd in *. apply lc_feq; auto using feq_refl. intros k Hk'. rewrite Hz by auto. unfold del. destruct (k =? 0)%N; reflexivity. }
  rewrite Z in E. apply (cancel2 two). apply sub_eq0. transitivity ((a (pow2 i) + a (pow2 i)) * J (pow2 j) - a (pow2 j) * (J (pow2 i) + J (pow2 i))); [ring|symmetry; exact E].
Qed.

(** The vector that the wedge of n vectors is the dual of. *)
Lemma wedge_dual us : vecs d us -> length us = n -> exists J, is_vec n J /\ feq d (fwedge d us) (fd n J) /\
  Forall (fun u => pair u J = 0) us /\
  forall a, is_vec n a -> Forall (fun u => pair a u = 0) us -> forall i j, i < d -> j < d -> a (pow2 i) * J (pow2 j) = a (pow2 j) * J (pow2 i).
Proof.
  intros Hv Hl. destruct (dual_of n (fwedge d us)) as (J & HJ & EJ); [rewrite <- Hl; rewrite <- Hl in Hv; apply homog_fwedge; auto|].
  exists J. split; auto. split; auto. split.
  - apply Forall_forall. intros u Hu. assert (Vu : is_vec n u) by (apply vec_homog; eapply Forall_forall in Hv; eauto).
    pose proof (wedge_vec_dual n u J _ Vu HJ (ones_lt _)) as W. rewrite N.eqb_refl in W.
    rewrite <- (gp_ext d 0 (ones d) u u (fwedge d us) (fd n J) (ones d) (ones_lt _) (feq_refl _ _) EJ) in W. rewrite (wp_rep u us Vu Hv Hu) in W by apply ones_lt.
    symmetry in W. apply sgb_eq0 in W. exact W.
  - intros a Ha Hz. apply prop_wedge; auto. pose proof (proj1 (vec_homog n a) Ha) as Ha'.
    pose (x := fwedge d us). assert (Hx : homog d n x) by (unfold x; eapply homog_feq; [apply feq_sym, EJ|apply fd_homog; auto]).
    pose (h := fundual A a).
    assert (Eh : feq d (fdual A h) a) by (intros k Hk; unfold h; apply fdual_fundual; rewrite Hd; auto).
    assert (M : feq d (fmeet A h x) (fun _ => 0)).
    { intros k Hk. apply (cancel2 two).
      assert (E : fmeet A h x k + fmeet A h x k = sgb (Nat.odd (a_dim A)) (lc A (fdual A h) (alpha x) k)).
      { rewrite <- Hd in Hk. apply (meet_lc A h x); auto. rewrite Hd. eapply homog_feq; [apply feq_sym, Eh|]. auto. }
      rewrite E. assert (Z : lc A (fdual A h) (alpha x) k = 0).
      { transitivity (lc A a (fun i => sgb (Nat.odd n) (x i)) k).
        - rewrite <- Hd in *. apply lc_feq; auto. intros i Hi. unfold alpha, par. destruct (Nat.eq_dec (popcount i) n) as [->|Hp]; [reflexivity|]. rewrite Hx by auto. rewrite !sgb_0. reflexivity.
        - pose proof (lc_fwedge a us Ha Hv Hz k Hk) as Z. fold x in Z. destruct (Nat.odd n); cbn [sgb]; [|exact Z].
          unfold lc, fsub in *. change (fun i => - x i) with (fneg x). rewrite gp_neg_r.
          rewrite (gp_ext (a_dim A) 0 0 (alpha (fneg x)) (fneg (alpha x)) a a k) by (rewrite ?Hd; auto using feq_refl; intros i Hi; unfold alpha, fneg; destruct (par i); cbn; reflexivity).
          rewrite gp_neg_l. transitivity (- (gp (a_dim A) 0 0 a x k - gp (a_dim A) 0 0 (alpha x) a k)); [ring|rewrite Z; ring]. }
      rewrite Z, sgb_0. ring. }
    assert (W : feq d (wp a (fd n x)) (fun _ => 0)).
    { intros k Hk. pose proof (fdual_fundual A (gp (a_dim A) 0 (ones (a_dim A)) (fdual A h) (fdual A x)) k) as E. rewrite Hd in E. specialize (E Hk).
      transitivity (gp d 0 (ones d) (fdual A h) (fdual A x) k); [apply gp_ext; auto using feq_sym, dual_fd|]. rewrite <- E.
      unfold fdual at 1. unfold fmeet in M. rewrite Hd in M. rewrite M, sgb_0; [reflexivity|]. unfold cpl. rewrite Hd. apply cmp_lt; auto. }
    intros k Hk. apply (sgb_inj (par (ones n))). rewrite sgb_0. rewrite <- (W k Hk).
    rewrite (gp_ext d 0 (ones d) a a (fd n x) (fun i => sgb (par (ones n)) (J i)) k); auto using feq_refl.
    + destruct (par (ones n)); cbn [sgb]; [change (fun i => - J i) with (fneg J); rewrite gp_neg_r|]; reflexivity.
    + intros i Hi. rewrite <- (fd2 J HJ i Hi). apply fd_ext; auto.
Qed.
End Fun.
