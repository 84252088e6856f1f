(** exp against the partial sums of the exponential series. *)
From Verif Require Export P_ExpLim P_Exp.
From Coq Require Import QArith Lqa Lia.
Local Open Scope Qc_scope.

(** Tails of the series. *)
Lemma ecf_mul_le r n k : 0 <= r -> ecf r (n + k) <= ecf r n * ecf r k.
Proof.
  intros Hr. induction k as [|k IH].
  - rewrite Nat.add_0_r. replace (ecf r 0) with 1 by (unfold ecf; cbn [Qcpower qfact]; field; discriminate). rewrite Qcmult_1_r. apply Qcle_refl.
  - rewrite Nat.add_succ_r. assert (E1 := ecf_S r (n + k)). assert (E2 := ecf_S r k).
    assert (P1 : 0 <= ecf r (Datatypes.S (n + k))) by (apply ecf_pos; auto). assert (P2 := natq_pos n).
    assert (Q : natq (Datatypes.S (n + k)) = natq n + natq (Datatypes.S k)) by (clear; induction n as [|n IH]; cbn [Nat.add]; [change (natq 0) with 0; ring|rewrite (natq_S (Datatypes.S (n + k))), IH, (natq_S n); ring]).
    assert (L : natq (Datatypes.S k) * ecf r (Datatypes.S (n + k)) <= natq (Datatypes.S k) * (ecf r n * ecf r (Datatypes.S k))).
    { replace (natq (Datatypes.S k) * (ecf r n * ecf r (Datatypes.S k))) with (r * (ecf r n * ecf r k)) by (transitivity (ecf r n * (natq (Datatypes.S k) * ecf r (Datatypes.S k))); [rewrite E2|]; ring).
      eapply Qcle_trans; [|apply qmul_le; [exact Hr|exact IH]]. rewrite <- E1, Q. pose proof (qmul_pos _ _ P2 P1) as P3. set (X := natq n * _) in *. replace ((natq n + natq (Datatypes.S k)) * ecf r (Datatypes.S (n + k))) with (X + natq (Datatypes.S k) * ecf r (Datatypes.S (n + k))) by (unfold X; ring).
      set (Y := _ * _). clearbody X Y. qn. lra. }
    assert (N := natq_nz k). assert (I : 0 <= / natq (Datatypes.S k)) by (apply qinv_pos; rewrite natq_S; pose proof (natq_pos k); qn; lra).
    pose proof (qmul_le _ _ _ I L) as R. rewrite !Qcmult_assoc, !(Qcmult_comm (/ _)), !Qcmult_inv_r, !Qcmult_1_l in R by auto. exact R.
Qed.
Lemma exp_num_ecf K r : exp_num (Datatypes.S K) r = exp_num K r + ecf r (Datatypes.S K).
Proof. reflexivity. Qed.
Lemma exp_num_pos K r : 0 <= r -> 1 <= exp_num K r.
Proof. intros Hr. induction K as [|K IH]; [apply Qcle_refl|]. rewrite exp_num_ecf. pose proof (ecf_pos r (Datatypes.S K) Hr) as H. set (X := ecf _ _) in *. set (Y := exp_num K r) in *. clearbody X Y. qn. lra. Qed.
Lemma tail_le r n K : 0 <= r -> (n <= K)%nat -> exp_num K r - exp_num n r <= ecf r (Datatypes.S n) * exp_num K r.
Proof.
  intros Hr HK. assert (G : forall j, exp_num (Datatypes.S n + j) r - exp_num n r <= ecf r (Datatypes.S n) * exp_num j r).
  { induction j as [|j IH].
    - rewrite Nat.add_0_r, exp_num_ecf. cbn [exp_num]. set (X := ecf _ _). set (Y := exp_num n r). clearbody X Y. qn. lra.
    - rewrite Nat.add_succ_r, !exp_num_ecf. pose proof (ecf_mul_le r (Datatypes.S n) (Datatypes.S j) Hr) as H. rewrite Nat.add_succ_r in H. 
      rewrite Qcmult_plus_distr_r. set (X := ecf r (Datatypes.S (Datatypes.S n + j))) in *. set (Y := ecf r (Datatypes.S n) * ecf r (Datatypes.S j)) in *. set (Z := ecf r (Datatypes.S n) * exp_num j r) in *. set (V := exp_num (Datatypes.S n + j) r) in *. clearbody X Y Z V. qn. lra. }
  assert (Mo : forall a b, exp_num a r <= exp_num (b + a) r).
  { induction b as [|b IH]; [apply Qcle_refl|]. cbn [Nat.add]. rewrite exp_num_ecf. pose proof (ecf_pos r (Datatypes.S (b + a)) Hr). eapply Qcle_trans; [exact IH|]. set (X := ecf _ _) in *. clearbody X. qn. lra. }
  destruct (Nat.eq_dec n K) as [<-|Hne].
  - replace (exp_num n r - exp_num n r) with 0 by ring. apply qmul_pos; [apply ecf_pos; auto|]. eapply Qcle_trans; [|apply exp_num_pos; auto]. discriminate.
  - specialize (G (K - Datatypes.S n)%nat). replace (Datatypes.S n + (K - Datatypes.S n))%nat with K in G by lia. eapply Qcle_trans; [exact G|]. apply qmul_le; [apply ecf_pos; auto|].
    replace K with (Datatypes.S n + (K - Datatypes.S n))%nat at 2 by lia. apply Mo.
Qed.
Lemma qpow_mono (a b : Qc) n : 0 <= a -> a <= b -> a ^ n <= b ^ n.
Proof. intros Ha Hb. induction n as [|n IH]; cbn [Qcpower]; [apply Qcle_refl|]. apply qmul_le2; auto. apply qpow_pos; auto. Qed.
Lemma qpow_diff (a b : Qc) n : 0 <= a -> a <= b -> b ^ n - a ^ n <= natq n * ((b - a) * b ^ (n - 1)).
Proof.
  intros Ha Hb. assert (Hbb : 0 <= b) by (eapply Qcle_trans; eauto). induction n as [|n IH]; [cbn [Qcpower]; change (natq 0) with 0; rewrite Qcmult_0_l; replace (1 - 1) with 0 by ring; apply Qcle_refl|].
  replace (Datatypes.S n - 1)%nat with n by lia. cbn [Qcpower]. rewrite natq_S.
  assert (I2 : b * (b ^ n - a ^ n) <= natq n * ((b - a) * b ^ n)).
  { pose proof (qmul_le _ _ _ Hbb IH) as R. eapply Qcle_trans; [exact R|]. destruct n as [|n]; [change (natq 0) with 0; rewrite !Qcmult_0_l, Qcmult_0_r; apply Qcle_refl|].
    replace (Datatypes.S n - 1)%nat with n by lia. cbn [Qcpower]. replace (b * (natq (Datatypes.S n) * ((b - a) * b ^ n))) with (natq (Datatypes.S n) * ((b - a) * (b * b ^ n))) by ring. apply Qcle_refl. }
  assert (I3 : (b - a) * a ^ n <= (b - a) * b ^ n) by (apply qmul_le; [qn; lra|apply qpow_mono; auto]).
  replace (b * b ^ n - a * a ^ n) with (b * (b ^ n - a ^ n) + (b - a) * a ^ n) by ring. replace ((natq n + 1) * ((b - a) * b ^ n)) with (natq n * ((b - a) * b ^ n) + (b - a) * b ^ n) by ring.
  apply Qcplus_le_compat; auto.
Qed.
(** What scaling and squaring loses. *)
Lemma rest_le n s K r : (0 < s)%nat -> 0 <= r -> (n <= K)%nat -> exp_num K (natq s * r) - exp_num n r ^ s <= natq s * (ecf r (Datatypes.S n) * exp_num K r ^ s).
Proof.
  intros Hs Hr HK. pose proof (exp_num_pow K s r Hr) as H1. pose proof (exp_num_pos n r Hr) as H2. pose proof (exp_num_pos K r Hr) as H3.
  assert (H0 : 0 <= exp_num n r) by (eapply Qcle_trans; [|exact H2]; discriminate). assert (H0' : 0 <= exp_num K r) by (eapply Qcle_trans; [|exact H3]; discriminate).
  assert (H4 : exp_num n r <= exp_num K r).
  { replace K with (K - n + n)%nat by lia. induction (K - n)%nat as [|j IH]; [apply Qcle_refl|]. cbn [Nat.add]. rewrite exp_num_ecf. pose proof (ecf_pos r (Datatypes.S (j + n)) Hr). eapply Qcle_trans; [exact IH|]. set (X := ecf _ _) in *. clearbody X. qn. lra. }
  pose proof (qpow_diff _ _ s H0 H4) as H5. pose proof (tail_le r n K Hr HK) as H6.
  assert (H7 : (exp_num K r - exp_num n r) * exp_num K r ^ (s - 1) <= ecf r (Datatypes.S n) * exp_num K r ^ s).
  { destruct s as [|s]; [lia|]. replace (Datatypes.S s - 1)%nat with s by lia. cbn [Qcpower]. rewrite Qcmult_assoc. apply Qcmult_le_compat_r; auto. apply qpow_pos; auto. }
  pose proof (qmul_le _ _ _ (natq_pos s) H7) as H8. eapply Qcle_trans; [|exact H8]. eapply Qcle_trans; [|exact H5].
  set (X := exp_num K (natq s * r)) in *. set (Y := exp_num K r ^ s) in *. set (Z := exp_num n r ^ s). clearbody X Y Z. clear - H1. qn. lra.
Qed.
Lemma exp_num_mono K r r' : 0 <= r -> r <= r' -> exp_num K r <= exp_num K r'.
Proof.
  intros Hr H. induction K as [|K IH]; [apply Qcle_refl|]. rewrite !exp_num_ecf. apply Qcplus_le_compat; auto. unfold ecf, Qcdiv. apply Qcmult_le_compat_r; [apply qpow_mono; auto|apply qinv_pos, qfact_pos].
Qed.
(** 1 + 1 + 1/2 + ... + 1/K! <= 3 - 1/K! (K > 0). *)
Lemma exp_num_1 K : exp_num K 1 <= Q2Qc (3 # 1).
Proof.
  assert (E : forall k, ecf 1 k = 1 / qfact k) by (intros k; unfold ecf; f_equal; induction k as [|k IH]; [reflexivity|]; cbn [Qcpower]; rewrite IH; ring).
  destruct K as [|K]; [discriminate|]. assert (G : exp_num (Datatypes.S K) 1 <= Q2Qc (3 # 1) - ecf 1 (Datatypes.S K)).
  { induction K as [|K IH]; [vm_compute; discriminate|]. rewrite exp_num_ecf.
    assert (H : ecf 1 (Datatypes.S (Datatypes.S K)) + ecf 1 (Datatypes.S (Datatypes.S K)) <= ecf 1 (Datatypes.S K)).
    { pose proof (ecf_S 1 (Datatypes.S K)) as S1. rewrite Qcmult_1_l in S1. rewrite <- S1. rewrite !natq_S. pose proof (qmul_pos (natq K) (ecf 1 (Datatypes.S (Datatypes.S K))) (natq_pos K) ltac:(apply ecf_pos; discriminate)) as Hp.
      clear S1 IH E. set (X := ecf 1 (Datatypes.S (Datatypes.S K))) in *. replace ((natq K + 1 + 1) * X) with (natq K * X + (X + X)) by ring. set (Y := natq K * X) in *. clearbody X Y. qn. lra. }
    set (X := ecf 1 (Datatypes.S (Datatypes.S K))) in *. set (Y := ecf 1 (Datatypes.S K)) in *. set (Z := exp_num (Datatypes.S K) 1) in *. clearbody X Y Z. qn. lra. }
  eapply Qcle_trans; [exact G|]. pose proof (ecf_pos 1 (Datatypes.S K) ltac:(discriminate)). set (X := ecf _ _) in *. clearbody X. qn. lra.
Qed.
Lemma exp_num_3 K r n : 0 <= r -> r <= natq n -> exp_num K r <= Q2Qc (3 # 1) ^ n.
Proof.
  intros Hr Hn. eapply Qcle_trans; [apply (exp_num_mono K r (natq n * 1)); auto; rewrite Qcmult_1_r; auto|]. eapply Qcle_trans; [apply exp_num_pow; discriminate|].
  apply qpow_mono; [|apply exp_num_1]. eapply Qcle_trans; [|apply exp_num_pos; discriminate]. discriminate.
Qed.
Lemma qpow_pow (a : Qc) u v : (a ^ u) ^ v = a ^ (u * v).
Proof.
  induction v as [|v IH]; [rewrite Nat.mul_0_r; reflexivity|]. cbn [Qcpower]. rewrite IH, Nat.mul_succ_r. generalize (u * v)%nat. clear. intros w. rewrite Nat.add_comm.
  induction u as [|u IH]; cbn [Qcpower Nat.add]; [ring|]. rewrite <- IH. ring.
Qed.
Lemma rest_bound n s K P c k : (0 < s)%nat -> natq s = c -> 0 <= P -> (n * s <= K)%nat -> P <= natq k * c ->
  exp_num K P - exp_num n (P / c) ^ s <= c * ((P / c) ^ Datatypes.S n / qfact (Datatypes.S n)) * Q2Qc (3 # 1) ^ (k * s).
Proof.
  intros Hs Hc HP HK Hk. assert (Hcp : 0 < c) by (rewrite <- Hc; destruct s as [|s']; [lia|]; rewrite natq_S; pose proof (natq_pos s'); qn; lra).
  assert (Hc0 : c <> 0) by (intros E; rewrite E in Hcp; revert Hcp; apply Qcle_not_lt, Qcle_refl).
  assert (Hr : 0 <= P / c) by (unfold Qcdiv; apply qmul_pos; auto; apply qinv_pos; auto).
  assert (Hrn : P / c <= natq k) by (unfold Qcdiv; replace (natq k) with (natq k * c * / c) by (field; auto); apply Qcmult_le_compat_r; auto; apply qinv_pos; auto).
  assert (EP : P = natq s * (P / c)) by (rewrite Hc; field; auto). set (r := P / c) in *. rewrite EP.
  eapply Qcle_trans; [apply rest_le; auto; destruct s; nia|]. rewrite Hc. rewrite <- Qcmult_assoc. apply qmul_le; [apply Qclt_le_weak; auto|]. apply qmul_le; [apply (ecf_pos r (Datatypes.S n)); auto|].
  rewrite <- qpow_pow. apply qpow_mono; [|apply exp_num_3; auto]. eapply Qcle_trans; [|apply exp_num_pos; auto]. discriminate.
Qed.
