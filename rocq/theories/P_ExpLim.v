(** Polynomials with rational coefficients, truncated exponential series. *)
From Verif Require Export Spec_ExpLim P_Round4.
From Coq Require Import QArith Lqa Lia.
Local Open Scope Qc_scope.

Definition cf (l : list Qc) (k : nat) : Qc := nth k l 0.
Fixpoint padd (l m : list Qc) : list Qc := match l, m with [], _ => m | _, [] => l | a :: l, b :: m => a + b :: padd l m end.
Definition cmul (a : Qc) (l : list Qc) : list Qc := map (Qcmult a) l.
Fixpoint pmul (l m : list Qc) : list Qc := match l with [] => [] | c :: l => padd (cmul c m) (0 :: pmul l m) end.
Fixpoint ppow (l : list Qc) (n : nat) : list Qc := match n with O => [1] | Datatypes.S n => pmul (ppow l n) l end.
Fixpoint psc (a : Qc) (l : list Qc) : list Qc := match l with [] => [] | c :: l => c :: cmul a (psc a l) end.
Fixpoint evq (l : list Qc) (r : Qc) : Qc := match l with [] => 0 | c :: l => c + r * evq l r end.
Definition ecf (a : Qc) (k : nat) : Qc := a ^ k / qfact k.
Definition Ex (n : nat) : list Qc := map (fun k => 1 / qfact k) (seq 0 (Datatypes.S n)).

Lemma cf_add l : forall m k, cf (padd l m) k = cf l k + cf m k.
Proof.
  unfold cf. induction l as [|a l IH]; intros m k; [cbn [padd]; destruct k; cbn [nth]; ring|]. destruct m as [|b m]; cbn [padd]; [destruct k; cbn [nth]; ring|].
  destruct k as [|k]; cbn [nth]; [ring|]. apply IH.
Qed.
Lemma cf_cmul a l : forall k, cf (cmul a l) k = a * cf l k.
Proof. unfold cf, cmul. induction l as [|b l IH]; intros k; destruct k as [|k]; cbn [map nth]; try ring. apply IH. Qed.
Lemma cf_sc a l : forall k, cf (psc a l) k = a ^ k * cf l k.
Proof.
  induction l as [|b l IH]; intros k; cbn [psc]; [unfold cf; destruct k; cbn [nth]; ring|]. destruct k as [|k]; [unfold cf; cbn [nth Qcpower]; ring|].
  change (cf (cmul a (psc a l)) k = a ^ Datatypes.S k * cf l k). rewrite cf_cmul, IH. cbn [Qcpower]. ring.
Qed.
Fixpoint conv (u w : nat -> Qc) (k : nat) : Qc :=
  match k with O => u O * w O | Datatypes.S k' => u O * w (Datatypes.S k') + conv (fun j => u (Datatypes.S j)) w k' end.
Lemma conv_0 w k : forall u, (forall j, u j = 0) -> conv u w k = 0.
Proof. induction k as [|k IH]; intros u Hu; cbn [conv]; rewrite Hu; [ring|]. rewrite IH by auto. ring. Qed.
Lemma cf_mul l : forall m k, cf (pmul l m) k = conv (cf l) (cf m) k.
Proof.
  induction l as [|c l IH]; intros m k; cbn [pmul]; [rewrite conv_0 by (intros j; destruct j; reflexivity); destruct k; reflexivity|].
  rewrite cf_add, cf_cmul. destruct k as [|k]; cbn [conv]; [change (cf (c :: l) 0) with c; unfold cf at 2; cbn [nth]; ring|].
  change (cf (c :: l) 0) with c. change (cf (0 :: pmul l m) (Datatypes.S k)) with (cf (pmul l m) k). rewrite IH. reflexivity.
Qed.
Lemma conv_ext k : forall u u' w w', (forall j, u j = u' j) -> (forall j, w j = w' j) -> conv u w k = conv u' w' k.
Proof. induction k as [|k IH]; intros u u' w w' E E'; cbn [conv]; rewrite E, E'; [reflexivity|]. rewrite (IH _ (fun j => u' (Datatypes.S j)) _ w') by auto. reflexivity. Qed.
Lemma conv_add k : forall u v w, conv (fun j => u j + v j) w k = conv u w k + conv v w k.
Proof. induction k as [|k IH]; intros u v w; cbn [conv]; [ring|]. rewrite (IH (fun j => u (Datatypes.S j)) (fun j => v (Datatypes.S j)) w). ring. Qed.
Lemma conv_sl a k : forall u w, conv (fun j => a * u j) w k = a * conv u w k.
Proof. induction k as [|k IH]; intros u w; cbn [conv]; [ring|]. rewrite (IH (fun j => u (Datatypes.S j)) w). ring. Qed.
Lemma conv_sr a k : forall u w, conv u (fun j => a * w j) k = a * conv u w k.
Proof. induction k as [|k IH]; intros u w; cbn [conv]; [ring|]. rewrite (IH (fun j => u (Datatypes.S j)) w). ring. Qed.
Lemma conv_pos k : forall u w, (forall j, 0 <= u j) -> (forall j, 0 <= w j) -> 0 <= conv u w k.
Proof.
  induction k as [|k IH]; intros u w Hu Hw; cbn [conv]; [apply qmul_pos; auto|]. replace 0 with (0 + 0) by ring. apply Qcplus_le_compat; [apply qmul_pos; auto|apply IH; auto].
Qed.
Lemma conv_mono k : forall u u' w w', (forall j, 0 <= u j /\ u j <= u' j) -> (forall j, 0 <= w j /\ w j <= w' j) -> conv u w k <= conv u' w' k.
Proof.
  induction k as [|k IH]; intros u u' w w' Hu Hw; cbn [conv].
  - apply qmul_le2; try apply Hu; apply Hw.
  - apply Qcplus_le_compat; [apply qmul_le2; try apply Hu; apply Hw|]. apply IH; auto.
Qed.

(** The Leibniz rule and the addition theorem of the coefficients. *)
Definition natq (n : nat) : Qc := Q2Qc (inject_Z (Z.of_nat n)).
Lemma natq_S n : natq (Datatypes.S n) = natq n + 1.
Proof. unfold natq. rewrite Nat2Z.inj_succ. unfold Z.succ. rewrite inject_Z_plus. apply Qc_is_canon. unfold Qcplus, Q2Qc. cbn [this]. rewrite !Qred_correct. reflexivity. Qed.
Lemma natq_pos n : 0 <= natq n.
Proof. unfold natq, Qcle, Q2Qc. cbn [this]. rewrite !Qred_correct. change 0%Q with (inject_Z 0). rewrite <- Zle_Qle. lia. Qed.
Lemma natq_nz n : natq (Datatypes.S n) <> 0.
Proof. rewrite natq_S. pose proof (natq_pos n) as H. intros E. assert (H1 : 1 <= 0) by (rewrite <- E; qn; lra). revert H1. apply Qclt_not_le. reflexivity. Qed.
Lemma qfact_pos k : 0 < qfact k.
Proof.
  induction k as [|k IH]; [reflexivity|]. cbn [qfact]. fold (natq (Datatypes.S k)). assert (H : 0 < natq (Datatypes.S k)) by (rewrite natq_S; pose proof (natq_pos k); qn; lra).
  replace 0 with (0 * natq (Datatypes.S k)) by ring. apply Qcmult_lt_compat_r; auto.
Qed.
Lemma qfact_nz k : qfact k <> 0.
Proof. pose proof (qfact_pos k) as H. intros E. rewrite E in H. revert H. apply Qcle_not_lt, Qcle_refl. Qed.
Definition dif (u : nat -> Qc) (j : nat) : Qc := natq (Datatypes.S j) * u (Datatypes.S j).
Lemma leibniz w k : forall u, natq (Datatypes.S k) * conv u w (Datatypes.S k) = conv (dif u) w k + conv u (dif w) k.
Proof.
  induction k as [|k IH]; intros u; [cbn [conv]; unfold dif; rewrite !natq_S; ring|].
  set (u' := fun j => u (Datatypes.S j)). change (conv u w (Datatypes.S (Datatypes.S k))) with (u O * w (Datatypes.S (Datatypes.S k)) + conv u' w (Datatypes.S k)).
  change (conv (dif u) w (Datatypes.S k)) with (dif u O * w (Datatypes.S k) + conv (fun j => dif u (Datatypes.S j)) w k).
  change (conv u (dif w) (Datatypes.S k)) with (u O * dif w (Datatypes.S k) + conv u' (dif w) k).
  rewrite (conv_ext k (fun j => dif u (Datatypes.S j)) (fun j => dif u' j + u' (Datatypes.S j)) w w); auto.
  2:{ intros j. unfold dif, u'. rewrite (natq_S (Datatypes.S j)). ring. }
  rewrite (conv_add k (dif u') (fun j => u' (Datatypes.S j)) w). specialize (IH u').
  assert (E : conv u' w (Datatypes.S k) = u 1%nat * w (Datatypes.S k) + conv (fun j => u' (Datatypes.S j)) w k) by reflexivity.
  replace (dif u O) with (u 1%nat) by (unfold dif; rewrite natq_S; change (natq 0) with 0; ring). unfold dif at 2. rewrite (natq_S (Datatypes.S k)) in *.
  transitivity ((natq (Datatypes.S k) + 1) * (u O * w (Datatypes.S (Datatypes.S k))) + conv u' w (Datatypes.S k) + natq (Datatypes.S k) * conv u' w (Datatypes.S k)); [ring|].
  rewrite IH, E. ring.
Qed.
Lemma qdiv_eq (a b c : Qc) : c <> 0 -> c * a = b -> a = b / c.
Proof. intros Hc <-. field. auto. Qed.
Lemma ecf_S a k : natq (Datatypes.S k) * ecf a (Datatypes.S k) = a * ecf a k.
Proof. unfold ecf. cbn [qfact Qcpower]. fold (natq (Datatypes.S k)). field. split; [apply qfact_nz|apply natq_nz]. Qed.
Lemma ecf_conv a b k : conv (ecf a) (ecf b) k = ecf (a + b) k.
Proof.
  induction k as [|k IH]; [unfold ecf; cbn [conv qfact Qcpower]; field; discriminate|].
  assert (E : natq (Datatypes.S k) * conv (ecf a) (ecf b) (Datatypes.S k) = natq (Datatypes.S k) * ecf (a + b) (Datatypes.S k)).
  { rewrite leibniz, ecf_S, <- IH. rewrite (conv_ext k (dif (ecf a)) (fun j => a * ecf a j) (ecf b) (ecf b)); auto; [|intros; apply ecf_S].
    rewrite (conv_ext k (ecf a) (ecf a) (dif (ecf b)) (fun j => b * ecf b j)); auto; [|intros; apply ecf_S]. rewrite (conv_sl a k (ecf a) (ecf b)), (conv_sr b k (ecf a) (ecf b)). ring. }
  assert (N := natq_nz k). transitivity (/ natq (Datatypes.S k) * (natq (Datatypes.S k) * conv (ecf a) (ecf b) (Datatypes.S k))); [field; auto|]. rewrite E. field. auto.
Qed.
Lemma qpow_pos (a : Qc) k : 0 <= a -> 0 <= a ^ k.
Proof. intros Ha. induction k as [|k IH]; cbn [Qcpower]; [discriminate|]. apply qmul_pos; auto. Qed.
Lemma qinv_pos (a : Qc) : 0 < a -> 0 <= / a.
Proof. intros H. unfold Qcle, Qcinv, Q2Qc. cbn [this]. rewrite !Qred_correct. apply Qinv_le_0_compat. apply Qlt_le_weak. exact H. Qed.
Lemma ecf_pos a k : 0 <= a -> 0 <= ecf a k.
Proof. intros Ha. unfold ecf, Qcdiv. apply qmul_pos; [apply qpow_pos; auto|apply qinv_pos, qfact_pos]. Qed.

(** The truncated series as a polynomial. *)
Lemma cf_Ex n k : (k <= n)%nat -> cf (Ex n) k = 1 / qfact k.
Proof. intros H. unfold cf, Ex. rewrite (nth_indep _ 0 (1 / qfact 0)) by (rewrite map_length, seq_length; lia). rewrite (map_nth (fun k => 1 / qfact k)), seq_nth by lia. reflexivity. Qed.
Lemma cf_out l k : (length l <= k)%nat -> cf l k = 0.
Proof. apply nth_overflow. Qed.
Lemma len_Ex n : length (Ex n) = Datatypes.S n.
Proof. unfold Ex. rewrite map_length, seq_length. reflexivity. Qed.
Lemma Ex_S n : Ex (Datatypes.S n) = Ex n ++ [1 / qfact (Datatypes.S n)].
Proof. unfold Ex. rewrite (seq_S (Datatypes.S n) 0), map_app. reflexivity. Qed.
Lemma len_add l : forall m, length (padd l m) = Nat.max (length l) (length m).
Proof. induction l as [|a l IH]; intros [|b m]; cbn [padd length]; auto. rewrite IH. reflexivity. Qed.
Lemma len_mul l m : (length (pmul l m) <= length l + length m)%nat.
Proof. induction l as [|c l IH]; cbn [pmul length]; [lia|]. rewrite len_add. unfold cmul. rewrite map_length. cbn [length]. lia. Qed.
Lemma len_mul1 l m : (1 <= length m)%nat -> (length (pmul l m) <= length l + length m - 1)%nat.
Proof. intros Hm. induction l as [|c l IH]; cbn [pmul length]; [lia|]. rewrite len_add. unfold cmul. rewrite map_length. cbn [length]. lia. Qed.
Lemma len_sc a l : length (psc a l) = length l.
Proof. induction l as [|c l IH]; cbn [psc length]; auto. unfold cmul. rewrite map_length, IH. reflexivity. Qed.
Lemma len_pow l n t : length l = Datatypes.S n -> (length (ppow l t) <= n * t + 1)%nat.
Proof. intros Hl. induction t as [|t IH]; cbn [ppow length]; [lia|]. pose proof (len_mul1 (ppow l t) l). lia. Qed.

Lemma sc_Ex_le a n k : 0 <= a -> 0 <= cf (psc a (Ex n)) k /\ cf (psc a (Ex n)) k <= ecf a k.
Proof.
  intros Ha. rewrite cf_sc. destruct (Nat.le_gt_cases k n) as [H|H].
  - rewrite cf_Ex by auto. replace (a ^ k * (1 / qfact k)) with (ecf a k) by (unfold ecf; field; apply qfact_nz). split; [apply ecf_pos; auto|apply Qcle_refl].
  - rewrite cf_out by (rewrite len_Ex; lia). rewrite Qcmult_0_r. split; [apply Qcle_refl|apply ecf_pos; auto].
Qed.
Lemma pow_Ex_le a n t : 0 <= a -> forall k, 0 <= cf (ppow (psc a (Ex n)) t) k /\ cf (ppow (psc a (Ex n)) t) k <= ecf (natq t * a) k.
Proof.
  intros Ha. induction t as [|t IH]; intros k.
  - cbn [ppow]. destruct k as [|k]; [split; [discriminate|unfold ecf; cbn [qfact Qcpower cf nth]; discriminate]|]. rewrite cf_out by (cbn [length]; lia). split; [apply Qcle_refl|].
    change (natq 0) with 0. rewrite Qcmult_0_l. apply ecf_pos, Qcle_refl.
  - cbn [ppow]. rewrite cf_mul. split; [apply conv_pos; intros j; [apply IH|apply sc_Ex_le; auto]|].
    rewrite natq_S. replace ((natq t + 1) * a) with (natq t * a + a) by ring. rewrite <- ecf_conv. apply conv_mono; [exact IH|]. intros j. apply sc_Ex_le; auto.
Qed.

(** Evaluation. *)
Lemma evq_add l : forall m r, evq (padd l m) r = evq l r + evq m r.
Proof. induction l as [|a l IH]; intros [|b m] r; cbn [padd evq]; try ring. rewrite IH. ring. Qed.
Lemma evq_cmul a l r : evq (cmul a l) r = a * evq l r.
Proof. unfold cmul. induction l as [|b l IH]; cbn [map evq]; [ring|]. rewrite IH. ring. Qed.
Lemma evq_mul l m r : evq (pmul l m) r = evq l r * evq m r.
Proof. induction l as [|b l IH]; cbn [pmul evq]; [ring|]. rewrite evq_add, evq_cmul. cbn [evq]. rewrite IH. ring. Qed.
Lemma evq_pow l n r : evq (ppow l n) r = evq l r ^ n.
Proof. induction n as [|n IH]; cbn [ppow Qcpower]; [cbn [evq]; ring|]. rewrite evq_mul, IH. ring. Qed.
Lemma evq_sc a l r : evq (psc a l) r = evq l (a * r).
Proof. induction l as [|b l IH]; cbn [psc evq]; [ring|]. rewrite evq_cmul, IH. ring. Qed.
Lemma evq_app l c r : evq (l ++ [c]) r = evq l r + c * r ^ length l.
Proof. induction l as [|b l IH]; cbn [app evq length Qcpower]; [ring|]. rewrite IH. ring. Qed.
Lemma evq_Ex K r : evq (Ex K) r = exp_num K r.
Proof.
  induction K as [|K IH]; [unfold Ex; cbn [seq map evq qfact exp_num]; field; discriminate|]. rewrite Ex_S, evq_app, IH, len_Ex. cbn [exp_num]. unfold Qcdiv. ring.
Qed.
Lemma evq_mono r : 0 <= r -> forall l m, (forall k, 0 <= cf l k /\ cf l k <= cf m k) -> evq l r <= evq m r.
Proof.
  intros Hr. assert (Z : forall m, (forall k, 0 <= cf m k) -> 0 <= evq m r).
  { induction m as [|b m IH]; intros Hm; cbn [evq]; [apply Qcle_refl|]. replace 0 with (0 + 0) by ring. apply Qcplus_le_compat; [apply (Hm O)|]. apply qmul_pos; auto. apply IH. intros k. apply (Hm (Datatypes.S k)). }
  induction l as [|a l IH]; intros m H; [apply Z; intros k; eapply Qcle_trans; apply H|]. destruct m as [|b m].
  - assert (E : forall k, cf (a :: l) k = 0). { intros k. destruct (H k) as [H1 H2]. apply Qcle_antisym; auto. eapply Qcle_trans; [exact H2|]. destruct k; apply Qcle_refl. }
    cbn [evq]. pose proof (E O) as E0. cbn in E0. rewrite E0. assert (Hl : evq l r <= evq [] r). { apply IH. intros k. split; [apply (H (Datatypes.S k))|]. eapply Qcle_trans; [apply (H (Datatypes.S k))|]. destruct k; apply Qcle_refl. }
    cbn [evq] in Hl. rewrite Qcplus_0_l. replace 0 with (r * 0) by ring. apply qmul_le; auto.
  - cbn [evq]. apply Qcplus_le_compat; [apply (H O)|]. apply qmul_le; auto. apply IH. intros k. apply (H (Datatypes.S k)).
Qed.
(** What scaling and squaring leaves out has nonnegative coefficients. *)
Definition rest (n s K : nat) : list Qc := padd (Ex K) (cmul (- (1)) (ppow (psc (1 / natq s) (Ex n)) s)).
Lemma rest_pos n s K : (0 < s)%nat -> (n * s <= K)%nat -> forall k, 0 <= cf (rest n s K) k.
Proof.
  intros Hs HK k. unfold rest. rewrite cf_add, cf_cmul. destruct (pow_Ex_le (1 / natq s) n s) with (k := k) as [H1 H2].
  { unfold Qcdiv. rewrite Qcmult_1_l. apply qinv_pos. destruct s; [lia|]. rewrite natq_S. pose proof (natq_pos s). qn. lra. }
  destruct (Nat.le_gt_cases k K) as [H|H].
  - rewrite cf_Ex by auto. replace (natq s * (1 / natq s)) with 1 in H2 by (field; destruct s; [lia|apply natq_nz]).
    replace (ecf 1 k) with (1 / qfact k) in H2. 2:{ unfold ecf. assert (E : 1 ^ k = 1) by (clear; induction k as [|k IH]; [reflexivity|]; cbn [Qcpower]; rewrite IH; ring). rewrite E. reflexivity. }
    set (X := cf _ k) in *. set (Y := 1 / qfact k) in *. clearbody X Y. qn. lra.
  - rewrite cf_out by (rewrite len_Ex; lia). rewrite cf_out; [|]. 
    2:{ pose proof (len_pow (psc (1 / natq s) (Ex n)) n s). rewrite len_sc, len_Ex in H0. specialize (H0 eq_refl). lia. }
    discriminate.
Qed.
Lemma evq_rest n s K r : evq (rest n s K) r = exp_num K r - exp_num n (r / natq s) ^ s.
Proof. unfold rest. rewrite evq_add, evq_cmul, evq_pow, evq_sc, !evq_Ex. replace (1 / natq s * r) with (r / natq s) by (unfold Qcdiv; ring). ring. Qed.
(** exp_num K (s r) <= exp_num K r ^ s. *)
Lemma exp_num_pow K s r : 0 <= r -> exp_num K (natq s * r) <= exp_num K r ^ s.
Proof.
  intros Hr. rewrite <- !evq_Ex, <- evq_pow. replace (natq s * r) with (natq s * r) by ring. rewrite <- evq_sc. apply evq_mono; auto. intros k. 
  assert (P : 0 <= natq s) by apply natq_pos. split; [apply sc_Ex_le; auto|]. clear r Hr. revert k. induction s as [|s IH]; intros k.
  - cbn [ppow]. rewrite cf_sc. change (natq 0) with 0. destruct k as [|k]; [cbn; discriminate|]. cbn [Qcpower]. rewrite !Qcmult_0_l. rewrite cf_out by (cbn [length]; lia). apply Qcle_refl.
  - cbn [ppow]. rewrite cf_mul. destruct (Nat.le_gt_cases k K) as [H|H].
    + rewrite cf_sc, cf_Ex by auto. replace (natq (Datatypes.S s) ^ k * (1 / qfact k)) with (ecf (natq s + 1) k) by (unfold ecf; rewrite natq_S; field; apply qfact_nz).
      rewrite <- ecf_conv.
      assert (M : forall k u u' w w', (forall j, (j <= k)%nat -> 0 <= u j /\ u j <= u' j) -> (forall j, (j <= k)%nat -> 0 <= w j /\ w j <= w' j) -> conv u w k <= conv u' w' k).
      { clear. induction k as [|k IH]; intros u u' w w' Hu Hw; cbn [conv].
        - apply qmul_le2; try (apply Hu; lia); apply Hw; lia.
        - apply Qcplus_le_compat; [apply qmul_le2; try (apply Hu; lia); apply Hw; lia|]. apply IH; intros j Hj; [apply Hu|apply Hw]; lia. }
      apply M; intros j Hj.
      * split; [apply ecf_pos, natq_pos|]. specialize (IH (natq_pos s) j). rewrite cf_sc, cf_Ex in IH by lia. replace (ecf (natq s) j) with (natq s ^ j * (1 / qfact j)) by (unfold ecf; field; apply qfact_nz). exact IH.
      * split; [apply ecf_pos; discriminate|]. rewrite cf_Ex by lia. unfold ecf. assert (E : 1 ^ j = 1) by (clear; induction j as [|j IH]; [reflexivity|]; cbn [Qcpower]; rewrite IH; ring). rewrite E. apply Qcle_refl.
    + rewrite cf_out by (rewrite len_sc, len_Ex; lia). apply conv_pos; intros j.
      * specialize (IH (natq_pos s) j). eapply Qcle_trans; [|exact IH]. apply sc_Ex_le, natq_pos.
      * destruct (Nat.le_gt_cases j K); [rewrite cf_Ex by auto|rewrite cf_out by (rewrite len_Ex; lia); apply Qcle_refl]. unfold Qcdiv. rewrite Qcmult_1_l. apply qinv_pos, qfact_pos.
Qed.
