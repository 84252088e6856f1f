(** Lemmas behind C29, C31, C32. *)
From Coq Require Import String.
From Coq Require Import List.
Import ListNotations.
From Verif Require Export P_Props5.
Local Open Scope nat_scope.

Section C29.
Context {T : Type} {RO : RingOps T} {W : NumLaws T} {L : RingLaws T} {CL : CommLaws T} {DV : DivOps T} {F : FieldLaws T} {m : Mode} {H : HashOrder}.
Variables (k : kind) (sg : list tok) (A : algebra).
Hypothesis D : declared sg A.
Local Notation d := (a_dim A).
Local Notation Q := (a_imag A).
Local Notation P := (a_proj A).
Implicit Types x : store k T.

Lemma revm_gives x n : valid A x -> mv_mag2 A x = Ok n -> n <> r0 -> gives A (mv_revm A x) (fun i => rdiv (frev (rd x) i) n).
Proof.
  intros Hx E Hn. pose proof (div_0 n Hn). unfold mv_revm. eapply gives_bind; [gv D|]. intros z Hz Hf. rewrite E. cbn [bind]. gv D.
Qed.
Lemma div_fun (f g : N -> T) n i : n <> r0 -> gp d Q P (fun j => rdiv (f j) n) g i = rdiv (gp d Q P f g i) n.
Proof.
  intros Hn. rewrite div_as_mul by auto. rewrite (mul_comm _ (rdiv r1 n)), <- gp_scale_l. apply sumI_ext. intros j Hj.
  rewrite div_as_mul, (mul_comm (f j)) by auto. reflexivity.
Qed.
Lemma div_fun_r (f g : N -> T) n i : n <> r0 -> gp d Q P f (fun j => rdiv (g j) n) i = rdiv (gp d Q P f g i) n.
Proof.
  intros Hn. rewrite div_as_mul by auto. rewrite <- gp_scale_r. apply sumI_ext. intros j Hj.
  rewrite div_as_mul by auto. reflexivity.
Qed.

Lemma revm_thm x n : valid A x -> mv_mag2 A x = Ok n -> n <> r0 ->
  agree A (mv_revm A x) (r <- mv_rev A x ;; mv_divs A r n) /\
  (p <- (r <- mv_revm A x ;; mv_mul A r x) ;; mv_scalar_part p) = Ok r1.
Proof.
  intros Hx E Hn. pose proof (div_0 n Hn). pose proof (revm_gives x n Hx E Hn) as Hr. split.
  - eapply agree_intro; [exact Hr|gv D|apply feq_refl].
  - assert (G : gives A (r <- mv_revm A x ;; mv_mul A r x) (fun i => rdiv (gp d Q P (frev (rd x)) (rd x) i) n)).
    { eapply gives_bind; [exact Hr|]. intros z Hz Hf. eapply gives_ext; [gv D|]. intros i Hi. apply div_fun; auto. }
    destruct G as (z & -> & Hz & Hf). cbn [bind]. unfold mv_scalar_part. rewrite Hf by apply pow2_pos.
    rewrite (v_mag2 A sg D x Hx) in E. injection E as ->. rewrite div_same by auto. reflexivity.
Qed.

Lemma revm_versor_thm (vs : list (store k T)) s n : supports k A -> Forall (valid A) vs -> Forall (of_grade A 1) vs ->
  prod_list (mv_mul A) A vs = Ok s -> mv_mag2 A s = Ok n -> n <> r0 ->
  agree A (r <- mv_revm A s ;; mv_mul A r s) (mv_one A) /\ agree A (r <- mv_revm A s ;; mv_mul A s r) (mv_one A).
Proof.
  intros Hs Hv Hg Es En Hn. assert (HD := supports_dim (T := T) sg A k D Hs).
  assert (Gs : gives A (prod_list (mv_mul A) A vs) (fprod d Q P (map rd vs))).
  { rewrite <- fold_fprod. apply prod_list_gives; auto. intros. apply (h_mul A sg D); auto. }
  destruct (gives_rd A _ _ s Gs Es) as (Vs & Fs). pose proof (vecs_of k A vs Hg) as Hvs.
  pose proof (revm_gives s n Vs En Hn) as Hr. rewrite (v_mag2 A sg D s Vs) in En. injection En as En.
  pose (c := normp d Q P (map rd vs)).
  assert (R1 : feq d (gp d Q P (frev (rd s)) (rd s)) (del 0 c)).
  { intros i Hi. unfold c. rewrite <- (rev_versor d Q P _ Hvs i Hi). apply gp_ext; auto. intros j Hj. unfold frev. rewrite Fs; auto. }
  assert (R2 : feq d (gp d Q P (rd s) (frev (rd s))) (del 0 c)).
  { intros i Hi. unfold c. rewrite <- (versor_rev d Q P _ Hvs i Hi). apply gp_ext; auto. intros j Hj. unfold frev. rewrite Fs; auto. }
  rewrite R1 in En by apply pow2_pos. unfold del in En. cbn in En.
  clear Fs. split; (eapply agree_intro; [eapply gives_bind; [exact Hr|]; intros z Hz Hf; gv D|gv D|]); intros i Hi.
  - rewrite div_fun, R1 by auto. unfold del. destruct (i =? 0)%N; [rewrite En; apply div_same; auto|apply div_0; auto].
  - rewrite div_fun_r, R2 by auto. unfold del. destruct (i =? 0)%N; [rewrite En; apply div_same; auto|apply div_0; auto].
Qed.
End C29.

(** *** Division *)
Ltac gsv := repeat match goal with
  | |- context[gsign ?d ?q ?p ?a ?b] => let v := eval vm_compute in (gsign d q p a b) in change (gsign d q p a b) with v
  end.
Ltac xyv y := repeat match goal with
  | |- context[y (N.lxor ?a ?b)] => let v := eval vm_compute in (N.lxor a b) in change (y (N.lxor a b)) with (y v)
  | |- context[y (N.add ?a ?b)] => let v := eval vm_compute in (N.add a b) in change (y (N.add a b)) with (y v)
  end.

Section Div.
Context {T : Type} {RO : RingOps T} {W : NumLaws T} {L : RingLaws T} {CL : CommLaws T}.
Add Ring TR6 : comm_ring_theory.
Local Open Scope rg_scope.

Definition cj (y : N -> T) := alpha (frev y).
Definition sqsum d (y : N -> T) := sumI d (fun i => y i * y i).

Lemma conj_div d Q : (d = 1%nat /\ Q = 1%N) \/ (d = 2%nat /\ Q = 3%N) -> forall y : N -> T,
  feq d (gp d Q 0 y (cj y)) (del 0 (sqsum d y)) /\ feq d (gp d Q 0 (cj y) y) (del 0 (sqsum d y)).
Proof.
  intros [[-> ->]|[-> ->]] y; split; intros k Hk; unfold sqsum, gp.
  all: change (pow2 1) with 2%N in Hk; change (pow2 2) with 4%N in Hk.
  1,2: assert (Ek : k = 0%N \/ k = 1%N) by lia; destruct Ek as [-> | -> ].
  5,6: assert (Ek : k = 0%N \/ k = 1%N \/ k = 2%N \/ k = 3%N) by lia; destruct Ek as [-> | [-> | [-> | -> ]]].
  all: rewrite !sumI_S, !sumI_O; gsv; cbn [act]; unfold cj, alpha, frev; xyv y.
  all: repeat match goal with |- context[popcount ?a] => let v := eval vm_compute in (popcount a) in change (popcount a) with v end.
  all: repeat match goal with |- context[par ?a] => let v := eval vm_compute in (par a) in change (par a) with v end.
  all: repeat match goal with |- context[rbit ?a] => let v := eval vm_compute in (rbit a) in change (rbit a) with v end.
  all: unfold del; cbn [N.eqb Pos.eqb sgb]; ring.
Qed.
End Div.

Section C31.
Context {T : Type} {RO : RingOps T} {W : NumLaws T} {L : RingLaws T} {CL : CommLaws T} {DV : DivOps T} {F : FieldLaws T} {m : Mode} {H : HashOrder}.
Variables (k : kind) (sg : list tok) (A : algebra).
Hypothesis D : declared sg A.
Hypothesis Hsg : sg = [Tminus] \/ sg = [Tminus; Tminus].
Local Notation d := (a_dim A).
Local Notation Q := (a_imag A).
Local Notation P := (a_proj A).
Implicit Types x y : store k T.

Lemma div_masks : P = 0%N /\ ((d = 1 /\ Q = 1%N) \/ (d = 2 /\ Q = 3%N)).
Proof.
  destruct Hsg as [E|E]; rewrite E in D; pose proof (declared_dim _ _ D) as Ed; cbn in Ed.
  - pose proof (uniform_masks Tminus 1 A D) as (E1 & E2). rewrite Ed in *. split; auto.
  - pose proof (uniform_masks Tminus 2 A D) as (E1 & E2). rewrite Ed in *. split; auto.
Qed.

Definition qn y : T := sqsum d (rd y).

Lemma div_gives x y f : valid A x -> valid A y -> feq d (rd x) f -> qn y <> r0 ->
  gives A (mv_div A x y) (gp d Q P f (fun i => rdiv (cj (rd y) i) (qn y))).
Proof.
  intros Hx Hy Hfx Hn. destruct div_masks as (EP & Hm). unfold mv_div.
  eapply gives_bind; [gv D|]. intros r Hr Hfr. eapply gives_bind; [gv D|]. intros c Hc Hfc.
  pose proof (h_mul A sg D y c _ _ Hy Hc (feq_refl _ _) Hfc) as G.
  destruct G as (p & -> & Hp & Hfp). cbn [bind]. rewrite Hfp by apply pow2_pos. cbn [bind].
  assert (En : gp d Q P (rd y) (alpha (frev (rd y))) 0%N = qn y).
  { rewrite EP. destruct (conj_div d Q Hm (rd y)) as (G1 & _). unfold cj in G1. rewrite G1 by apply pow2_pos. reflexivity. }
  rewrite En. cbv zeta.
  destruct (enum_mut_ok A (fun _ c0 => rdiv c0 (qn y)) c Hc) as (V & E); [intros; apply div_0; auto|].
  eapply (h_mul A sg D); eauto. intros i Hi. rewrite (rd_coef d _ i V Hi), E by auto. f_equal.
  rewrite <- (rd_coef d c i Hc Hi). apply Hfc; auto.
Qed.

Lemma div_thm x y : valid A x -> valid A y -> qn y <> r0 ->
  agree A (q <- mv_div A x y ;; mv_mul A q y) (Ok x) /\
  agree A (p <- mv_mul A x y ;; mv_div A p y) (Ok x) /\
  agree A (mv_div A y y) (mv_one A).
Proof.
  intros Hx Hy Hn. assert (HD := valid_of A x Hx). destruct div_masks as (EP & Hm).
  destruct (conj_div d Q Hm (rd y)) as (G1 & G2). fold (qn y) in *.
  assert (U1 : feq d (gp d Q P (rd y) (fun i => rdiv (cj (rd y) i) (qn y))) (del 0 r1)).
  { intros i Hi. rewrite (div_fun_r A), EP, G1 by auto. unfold del. destruct (i =? 0)%N; [apply div_same|apply div_0]; auto. }
  assert (U2 : feq d (gp d Q P (fun i => rdiv (cj (rd y) i) (qn y)) (rd y)) (del 0 r1)).
  { intros i Hi. rewrite (div_fun A), EP, G2 by auto. unfold del. destruct (i =? 0)%N; [apply div_same|apply div_0]; auto. }
  split; [|split].
  - eapply agree_intro; [eapply gives_bind; [apply div_gives; eauto using feq_refl|]; intros z Hz Hf; gv D|gv D|].
    intros i Hi. rewrite gp_assoc by auto. rewrite (gp_ext d Q P _ _ _ _ i Hi (feq_refl _ _) U2). apply gp_1_r; auto.
  - eapply agree_intro; [eapply gives_bind; [gv D|]; intros z Hz Hf; apply div_gives; eauto|gv D|].
    intros i Hi. rewrite gp_assoc by auto. rewrite (gp_ext d Q P _ _ _ _ i Hi (feq_refl _ _) U1). apply gp_1_r; auto.
  - eapply agree_intro; [apply div_gives; eauto using feq_refl|gv D|]. exact U1.
Qed.

Lemma norm_nonzero y : formally_real T -> valid A y -> mv_is_zero y = false -> qn y <> r0.
Proof.
  intros Hf Hy Hz E. assert (E' : suml (fun a => rmul a a) (map (rd y) (idxs d)) = r0) by (rewrite suml_map; exact E).
  apply Hf in E'. rewrite Forall_map, Forall_forall in E'.
  assert (Z : mv_is_zero y = true); [|congruence]. apply (is_zero_ok A y Hy). intros i Hi. rewrite <- (rd_coef d y i) by auto. apply E'.
  apply in_idxs; auto.
Qed.
End C31.

(** *** Quaternions *)
Section C32.
Context {T : Type} {RO : RingOps T} {W : NumLaws T} {L : RingLaws T} {m : Mode} {H : HashOrder}.
Local Open Scope rg_scope.
Local Notation QA := QuaternionAlgebra.

Lemma quat_declared : declared [Tminus; Tminus] QA.
Proof. split; [exists ["I"; "J"]%string; reflexivity|cbn; lia]. Qed.
Lemma qst_eta (p q : qst T) : q_0 p = q_0 q -> q_1 p = q_1 q -> q_2 p = q_2 q -> q_3 p = q_3 q -> p = q.
Proof. destruct p, q; cbn; intros; subst; reflexivity. Qed.
Lemma quat_gives r f : gives (S := store KQuat T) QA r f -> r = Ok (mkQ (f 0%N) (f 1%N) (f 2%N) (f 3%N)).
Proof.
  intros (z & -> & _ & Hz). f_equal.
  pose proof (Hz 0%N eq_refl) as E0. pose proof (Hz 1%N eq_refl) as E1. pose proof (Hz 2%N eq_refl) as E2. pose proof (Hz 3%N eq_refl) as E3.
  injection E0 as E0. injection E1 as E1. injection E2 as E2. injection E3 as E3. apply qst_eta; cbn; auto.
Qed.
Lemma quat_valid (q : store KQuat T) : valid QA q.
Proof. reflexivity. Qed.

Lemma quat_mul_thm (w x y z w' x' y' z' : T) :
  mv_mul (S := store KQuat T) QA (mkQ w x y (- z)) (mkQ w' x' y' (- z')) =
  Ok (mkQ (w * w' - x * x' - y * y' - z * z')
          (w * x' + x * w' + y * z' - z * y')
          (w * y' - x * z' + y * w' + z * x')
          (- (w * z' + x * y' - y * x' + z * w'))).
Proof.
  pose proof (h_mul QA _ quat_declared _ _ _ _ (quat_valid (mkQ w x y (- z))) (quat_valid (mkQ w' x' y' (- z'))) (feq_refl _ _) (feq_refl _ _)) as G.
  apply quat_gives in G. rewrite G. f_equal. cbn [a_dim QuaternionAlgebra a_imag a_proj].
  apply qst_eta; cbn [q_0 q_1 q_2 q_3]; unfold gp; rewrite !sumI_S, !sumI_O; gsv; cbn [act].
  all: repeat match goal with |- context[rd ?q ?a] => let v := eval cbn in (rd q a) in change (rd q a) with v end.
  all: rewrite ?sub_def, ?neg_add, ?neg_neg, ?mul_neg_l, ?mul_neg_r, ?neg_neg, ?add_assoc; reflexivity.
Qed.

Lemma quat_relations_thm :
  let i : store KQuat T := quat_i in let j : store KQuat T := quat_j in let k : store KQuat T := quat_k in
  let minus_one := (o <- mv_one QA ;; mv_neg QA o) in
  mv_mul QA i i = minus_one /\ mv_mul QA j j = minus_one /\ mv_mul QA k k = minus_one /\
  (ij <- mv_mul QA i j ;; mv_mul QA ij k) = minus_one /\
  mv_mul QA i j = Ok k /\ mv_mul QA j k = Ok i /\ mv_mul QA k i = Ok j /\
  mv_basis QA = Ok [i; j].
Proof.
  assert (Z : - (0:T) = 0) by apply neg_0.
  assert (Ei : (quat_i : store KQuat T) = mkQ 0 1 0 (- 0)) by (rewrite Z; reflexivity).
  assert (Ej : (quat_j : store KQuat T) = mkQ 0 0 1 (- 0)) by (rewrite Z; reflexivity).
  assert (Ek : (quat_k : store KQuat T) = mkQ 0 0 0 (rneg r1)) by reflexivity.
  assert (Em : (o <- mv_one QA ;; mv_neg QA o) = Ok (mkQ (rneg r1) 0 0 (rneg r0) : store KQuat T)).
  { assert (HD : st_dim_ok (S := store KQuat T) (a_dim QA)) by reflexivity.
    assert (G : gives (S := store KQuat T) QA (o <- mv_one QA ;; mv_neg QA o) (fneg (del 0%N r1))) by gv quat_declared.
    apply quat_gives in G. rewrite G. unfold fneg, del. cbn. rewrite !Z. reflexivity. }
  assert (Eij : mv_mul (S := store KQuat T) QA quat_i quat_j = Ok quat_k).
  { rewrite Ei, Ej, Ek, quat_mul_thm. f_equal. apply qst_eta; cbn; rewrite ?mul_0_l, ?mul_0_r, ?mul_1_l, ?sub_0_r, ?add_0_r, ?add_0_l, ?sub_0_r; auto. }
  cbv zeta. rewrite Em. repeat match goal with |- _ /\ _ => split end.
  all: try (rewrite Eij; cbn [bind]).
  all: try reflexivity.
  all: try (rewrite ?Ei, ?Ej, ?Ek, quat_mul_thm; f_equal; apply qst_eta; cbn;
    rewrite ?mul_0_l, ?mul_0_r, ?mul_1_l, ?mul_1_r, ?sub_0_r, ?add_0_r, ?add_0_l, ?sub_0_r, ?Z, ?sub_0_l; auto).
Qed.

Lemma quat_conj_thm (q : store KQuat T) : (r <- mv_rev QA q ;; mv_flip QA r) = Ok (quat_conj q).
Proof.
  assert (G : gives (S := store KQuat T) QA (r <- mv_rev QA q ;; mv_flip QA r) (alpha (frev (rd q)))) by (pose proof (quat_valid q); gv quat_declared).
  apply quat_gives in G. rewrite G. cbn. rewrite ?neg_neg. reflexivity.
Qed.
Lemma quat_dense_thm (x y : store KQuat T) :
  same QA (mv_mul QA x y) (u <- mv_to_storage QA x ;; v <- mv_to_storage QA y ;; mv_mul QA u v : res (store KDense T)) /\
  declared [Tminus; Tminus] QA.
Proof.
  split; [|exact quat_declared]. pose proof (quat_valid x) as Hx. pose proof (quat_valid y) as Hy.
  assert (HD : st_dim_ok (S := store KDense T) (a_dim QA)) by (apply (supports_dim [Tminus; Tminus] QA KDense quat_declared); exact I).
  pose proof (h_mul QA _ quat_declared x y _ _ Hx Hy (feq_refl _ _) (feq_refl _ _)) as (z & E & Hz & F).
  destruct (to_storage_ok (S := store KQuat T) (S' := store KDense T) QA HD x Hx) as (u & Eu & Hu & Fu).
  destruct (to_storage_ok (S := store KQuat T) (S' := store KDense T) QA HD y Hy) as (v & Ev & Hv & Fv).
  assert (G : gives QA (mv_mul QA u v) (gp (a_dim QA) (a_imag QA) (a_proj QA) (rd x) (rd y))).
  { apply (h_mul QA _ quat_declared); auto; intros i Hi.
    - rewrite (rd_coef _ u i Hu Hi), (rd_coef _ x i Hx Hi). apply Fu; auto.
    - rewrite (rd_coef _ v i Hv Hi), (rd_coef _ y i Hy Hi). apply Fv; auto. }
  destruct G as (w & Ew & Hw & Fw). exists z, w. split; auto. rewrite Eu, Ev. cbn [bind]. split; auto. split; auto. split; auto.
  intros i Hi. rewrite F, Fw; auto.
Qed.
End C32.
Section C32c.
Context {T : Type} {RO : RingOps T} {W : NumLaws T} {L : RingLaws T} {CL : CommLaws T} {m : Mode} {H : HashOrder}.
Local Open Scope rg_scope.
Local Notation QA := QuaternionAlgebra.
Add Ring TR7 : comm_ring_theory.
Lemma quat_norm_thm (q : store KQuat T) : forall n, n = q_0 q * q_0 q + q_1 q * q_1 q + q_2 q * q_2 q + q_3 q * q_3 q ->
  mv_mul QA q (quat_conj q) = Ok (mkQ n 0 0 0) /\ mv_mul (S := store KQuat T) QA (quat_conj q) q = Ok (mkQ n 0 0 0).
Proof.
  intros n ->. destruct q as [a b c e].
  assert (E : e = - - e) by (rewrite neg_neg; auto). rewrite E. cbn [q_0 q_1 q_2 q_3]. unfold quat_conj. cbn [q_0 q_1 q_2 q_3].
  rewrite !quat_mul_thm. split; f_equal; apply qst_eta; cbn; ring.
Qed.
End C32c.

(** *** Remaining forms *)
Section Rest.
Context {T : Type} {RO : RingOps T} {W : NumLaws T} {L : RingLaws T} {m : Mode} {H : HashOrder}.

Lemma wedge_impl_thm n (a b dest : list T) : length a = 2 ^ n -> length b = 2 ^ n -> length dest = 2 ^ n ->
  exists r, wedge_impl (length a) a b dest = Ok (a, r) /\ length r = 2 ^ n /\
    forall k, (k < 2 ^ N.of_nat n)%N -> nth (N.to_nat k) r r0 =
      spec_mul q0 n (fun i => nth (N.to_nat i) a r0) (fun i => nth (N.to_nat i) b r0) k.
Proof.
  intros Ha Hb Hd. destruct (wedge_impl_ok n (length a) a b dest) as (r & E & Lr & F); auto.
  { rewrite Ha. apply Nat.pow_gt_lin_r. lia. }
  exists r. split; auto. split; auto. intros k Hk. rewrite (spec_mul_gp q0 n 0 (ones n)) by (auto using metric_q0).
  apply F; auto.
Qed.

Lemma dense_naive_thm sg A (x y : store KDense T) : declared sg A -> valid A x -> valid A y ->
  agree A (dense_wedge A x y) (naive_wedge A x y).
Proof.
  intros D Hx Hy. eapply agree_intro.
  - apply (h_kwedge A sg D KDense x y); [discriminate|auto|auto|apply feq_refl|apply feq_refl].
  - apply (h_wedge A sg D x y); auto using feq_refl.
  - apply feq_refl.
Qed.

Lemma grade_as_thm (k k' : kind) sg A (x : store k T) r : declared sg A -> supports k' A -> valid A x ->
  same A (mv_grade_extract A x r) (mv_grade_extract_as A x r : res (store k' T)).
Proof.
  intros D Hs Hx. assert (HD := supports_dim (T := T) sg A k' D Hs).
  destruct (grade_extract_as_ok (S := store k T) (S' := store k T) A (valid_of A x Hx) x r Hx) as (z & E & Hz & F).
  destruct (grade_extract_as_ok (S := store k T) (S' := store k' T) A HD x r Hx) as (z' & E' & Hz' & F').
  exists z, z'. split; [exact E|]. split; [exact E'|]. split; auto. split; auto.
  intros i Hi. unfold mv_get_by_idx. rewrite (st_get_ok _ z i Hz Hi), (st_get_ok _ z' i Hz' Hi), F, F'; auto.
Qed.

Lemma grades_thm sg A (x : store KSparse T) gs : declared sg A -> valid A x ->
  gives A (sparse_grades_extract A x gs) (fun i => if existsb (Nat.eqb (popcount i)) gs then rd x i else r0) /\
  gives A (Ok (sparse_retain_grades x gs) : res (store KSparse T)) (fun i => if existsb (Nat.eqb (popcount i)) gs then rd x i else r0).
Proof.
  intros D Hx. split.
  - exact (from_indexed_filter A sg D x (fun i _ => existsb (Nat.eqb (popcount i)) gs) Hx).
  - exact (g_sparse_filter A x (fun i _ => existsb (Nat.eqb (popcount i)) gs) Hx).
Qed.
Lemma filter_thm (k : kind) sg A (x : store k T) (q : N -> T -> bool) : declared sg A -> k <> KQuat -> valid A x ->
  gives A (k_filter k A q x) (fun i => if q i (rd x i) then rd x i else r0).
Proof.
  intros D Hk Hx. destruct k; [|exact (g_sparse_filter A x q Hx)|congruence].
  exact (from_indexed_filter A sg D x q Hx).
Qed.
End Rest.

Section Revc.
Context {T : Type} {RO : RingOps T} {W : NumLaws T} {L : RingLaws T} {CL : CommLaws T} {DV : DivOps T} {F : FieldLaws T} {CJ : ConjOps T} {m : Mode} {H : HashOrder}.
Variables (k : kind) (sg : list tok) (A : algebra).
Hypothesis D : declared sg A.
Local Notation d := (a_dim A).
Implicit Types x : store k T.

Lemma revcm_thm x n : rconj (T := T) r0 = r0 -> valid A x -> mv_cmag2 A x = Ok n -> n <> r0 ->
  agree A (mv_revcm A x) (r <- mv_revc A x ;; mv_divs A r n) /\
  (p <- (r <- mv_revcm A x ;; mv_mul A r x) ;; mv_scalar_part p) = Ok r1.
Proof.
  intros Hc Hx E Hn. pose proof (div_0 n Hn).
  assert (Hr : gives A (mv_revcm A x) (fun i => rdiv (frev (fun j => rconj (rd x j)) i) n)).
  { unfold mv_revcm. eapply gives_bind; [gv D|]. intros z Hz Hf. rewrite E. cbn [bind]. gv D. }
  split.
  - eapply agree_intro; [exact Hr|gv D|apply feq_refl].
  - assert (G : gives A (r <- mv_revcm A x ;; mv_mul A r x) (fun i => rdiv (gp d (a_imag A) (a_proj A) (frev (fun j => rconj (rd x j))) (rd x) i) n)).
    { eapply gives_bind; [exact Hr|]. intros z Hz Hf. eapply gives_ext; [gv D|]. intros i Hi. apply div_fun; auto. }
    destruct G as (z & -> & Hz & Hf). cbn [bind]. unfold mv_scalar_part. rewrite Hf by apply pow2_pos.
    rewrite (v_cmag2 A sg D x Hc Hx) in E. injection E as ->. rewrite div_same by auto. reflexivity.
Qed.

Lemma div_api_thm (x y : store k T) n : sg = [Tminus] \/ sg = [Tminus; Tminus] -> valid A x -> valid A y ->
  (r <- mv_rev A y ;; c <- mv_flip A r ;; p <- mv_mul A y c ;; mv_scalar_part p) = Ok n -> n <> r0 ->
  agree A (q <- mv_div A x y ;; mv_mul A q y) (Ok x) /\
  agree A (p <- mv_mul A x y ;; mv_div A p y) (Ok x) /\
  agree A (mv_div A y y) (mv_one A).
Proof.
  intros Hsg Hx Hy E Hn. apply (div_thm k sg A D Hsg); auto. destruct (div_masks sg A D Hsg) as (EP & Hm).
  assert (G : gives A (r <- mv_rev A y ;; c <- mv_flip A r ;; mv_mul A y c) (gp d (a_imag A) (a_proj A) (rd y) (cj (rd y)))).
  { unfold cj. gv D. }
  destruct G as (z & Ez & Hz & Hf).
  assert (E' : (p <- (r <- mv_rev A y ;; c <- mv_flip A r ;; mv_mul A y c) ;; mv_scalar_part p) = Ok n).
  { destruct (mv_rev A y) as [r| |]; try discriminate. cbn [bind] in *. destruct (mv_flip A r) as [c| |]; try discriminate. exact E. }
  rewrite Ez in E'. cbn [bind] in E'. unfold mv_scalar_part in E'. rewrite Hf in E' by apply pow2_pos. injection E' as E'.
  destruct (conj_div d _ Hm (rd y)) as (G1 & _). rewrite EP in E'. rewrite G1 in E' by apply pow2_pos. unfold qn, del in *. cbn in E'. congruence.
Qed.
Lemma div_real_thm (x y : store k T) : formally_real T -> sg = [Tminus] \/ sg = [Tminus; Tminus] -> valid A x -> valid A y -> mv_is_zero y = false ->
  agree A (q <- mv_div A x y ;; mv_mul A q y) (Ok x) /\
  agree A (p <- mv_mul A x y ;; mv_div A p y) (Ok x) /\
  agree A (mv_div A y y) (mv_one A).
Proof. intros Hfr Hsg Hx Hy Hz. apply (div_thm k sg A D Hsg); auto. apply norm_nonzero; auto. Qed.
End Revc.
