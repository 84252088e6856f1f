(** The transforms are exact on Gaussian integers: one block, the whole table. *)
From Verif Require Export P_IntFft2 P_Round11.
From Coq Require Import ZArith Lia Floats.SpecFloat.
Local Open Scope Z_scope.

(** Sums over blocks of integers. *)
Lemma zsum_blocks n s (f : N -> Z) : sumI s (fun w => sumI n (blk_of n f w)) = sumI (n + s) f.
Proof.
  revert f. induction s as [|s IH]; intros f.
  - rewrite t0, Nat.add_0_r. apply (sumI_ext (T := Z)). intros i _. unfold blk_of. f_equal. lia.
  - rewrite Nat.add_succ_r, !tS, IH. f_equal. rewrite <- (IH (fun i => f (pow2 (n + s) + i)%N)). apply (sumI_ext (T := Z)). intros w _. apply (sumI_ext (T := Z)). intros i _. unfold blk_of. f_equal. rewrite pow2_add. lia.
Qed.
Lemma zsum_pad n (f : N -> Z) : sumI (2 * half n) (pad n f) = sumI n f.
Proof.
  assert (E : sumI n (pad n f) = sumI n f). { apply (sumI_ext (T := Z)). intros i Hi. unfold pad. apply N.ltb_lt in Hi. rewrite Hi. reflexivity. }
  destruct (half_cases n) as [(_ & ->)|(_ & ->)]; [exact E|]. rewrite tS, E, (sumI_0 (T := Z) n (fun i => pad n f (pow2 n + i)%N)).
  - apply Z.add_0_r.
  - intros i Hi. unfold pad. destruct (N.ltb_spec (pow2 n + i) (pow2 n)); [lia|reflexivity].
Qed.
Lemma zsum_block_le n s (f : N -> Z) w : (forall i, 0 <= f i) -> (w < pow2 s)%N -> sumI n (blk_of n f w) <= sumI (n + s) f.
Proof.
  intros Hf Hw. rewrite <- zsum_blocks. apply (tone s (fun w => sumI n (blk_of n f w))); auto. intros i _. apply zI_pos. intros; apply Hf.
Qed.

Section Gauss.
Variables prec emax : Z.
Hypothesis Hp : 1 < prec.
Hypothesis He : prec < emax.
Local Instance GO : RingOps flt := flt_ops prec emax.
Local Instance GD : DivOps flt := flt_div prec emax.
Local Instance GW : NumLaws flt := flt_laws prec emax.
Local Instance GE : Emb (cplx Z) (cplx flt) := gauss_emb prec emax.
Local Instance GL : EmbLaws (cplx Z) (cplx flt) := gauss_laws prec emax Hp He.
Local Notation G := (cplx Z).
Local Notation K := (cplx flt).
Local Notation ofz := (flt_of_Z prec emax).
Local Notation size := (@size G K GE).
Local Notation top := (@top G K GE).
Local Notation emb := (@emb G K GE).
Local Notation total n x := (sumI n (fun t => size (x t))).

Lemma top4 : 4 <= 2 ^ prec.
Proof. change 4 with (2 ^ 2). apply Z.pow_le_mono_r; lia. Qed.

Lemma half_gauss (c : G) : 4 * size c <= top -> rdiv (emb (radd c c)) (radd r1 r1) = emb c.
Proof.
  pose proof top4 as H4. destruct c as [a b]. cbn [Spec_IntProg.size Spec_IntProg.top Spec_IntProg.emb GE gauss_emb c_re c_im radd CplxOps ZOps r1 r0]. intros Hc.
  change (@r1 flt GO) with (ofz 1). change (@r0 flt GO) with (ofz 0).
  assert (A0 : @radd flt GO (ofz 0) (ofz 0) = ofz 0) by reflexivity.
  assert (A1 : @radd flt GO (ofz 1) (ofz 1) = ofz 2) by (exact (ofz_add prec emax Hp He 1 1 ltac:(lia) ltac:(lia) ltac:(lia))).
  assert (M2 : forall u, 4 * Z.abs u <= 2 ^ prec -> @rmul flt GO (ofz (u + u)) (ofz 2) = ofz (4 * u)).
  { intros u Hu. transitivity (ofz ((u + u) * 2)); [|f_equal; lia]. apply (ofz_mul prec emax Hp He); lia. }
  assert (M0 : forall u, 4 * Z.abs u <= 2 ^ prec -> @rmul flt GO (ofz (u + u)) (ofz 0) = ofz 0).
  { intros u Hu. transitivity (ofz ((u + u) * 0)); [|f_equal; lia]. apply (ofz_mul prec emax Hp He); lia. }
  assert (N4 : @radd flt GO (rmul (ofz 2) (ofz 2)) (rmul (ofz 0) (ofz 0)) = ofz 4).
  { replace (@rmul flt GO (ofz 2) (ofz 2)) with (ofz 4) by (symmetry; exact (ofz_mul prec emax Hp He 2 2 ltac:(lia) ltac:(lia) ltac:(lia))).
    replace (@rmul flt GO (ofz 0) (ofz 0)) with (ofz 0) by (symmetry; exact (ofz_mul prec emax Hp He 0 0 ltac:(lia) ltac:(lia) ltac:(lia))).
    exact (ofz_add prec emax Hp He 4 0 ltac:(lia) ltac:(lia) ltac:(lia)). }
  cbn [rdiv CplxDiv c_re c_im]. rewrite A1, A0, N4, !M2, !M0 by lia.
  assert (Ea : @radd flt GO (ofz (4 * a)) (ofz 0) = ofz (4 * a)). { transitivity (ofz (4 * a + 0)); [|f_equal; lia]. apply (ofz_add prec emax Hp He); lia. }
  assert (Eb : @rsub flt GO (ofz (4 * b)) (ofz 0) = ofz (4 * b)).
  { rewrite (@n_sub_def flt GO GW). change (@rneg flt GO (ofz 0)) with (ofz 0). transitivity (ofz (4 * b + 0)); [|f_equal; lia]. apply (ofz_add prec emax Hp He); lia. }
  rewrite Ea, Eb. f_equal; apply (ofz_div4 prec emax Hp He); lia.
Qed.

(** Phases. *)
Lemma emb_ipw k : emb (ipw k) = ipw k.
Proof.
  unfold ipw. destruct (mod4_cases k) as [-> | [-> | [-> | -> ]]]; cbn [nth i_powers Spec_IntProg.emb GE gauss_emb c_re c_im r0 r1 rneg ZOps]; f_equal;
    symmetry; exact (ofz_neg prec emax 1).
Qed.
Lemma emb_ipn k : emb (ipn k) = ipn k.
Proof.
  unfold ipn. destruct (mod4_cases k) as [-> | [-> | [-> | -> ]]]; cbn [nth i_neg_powers Spec_IntProg.emb GE gauss_emb c_re c_im r0 r1 rneg ZOps]; f_equal;
    symmetry; exact (ofz_neg prec emax 1).
Qed.
Lemma size_ipw k : size (ipw k) = 1.
Proof. unfold ipw. destruct (mod4_cases k) as [-> | [-> | [-> | -> ]]]; reflexivity. Qed.
Lemma size_ipn k : size (ipn k) = 1.
Proof. unfold ipn. destruct (mod4_cases k) as [-> | [-> | [-> | -> ]]]; reflexivity. Qed.
Lemma unit_r (u c : G) : size u = 1 -> size (rmul c u) <= size c.
Proof. intros Hu. pose proof (zm c u) as Hm. rewrite Hu in Hm. lia. Qed.
Lemma unit_l (u c : G) : size u = 1 -> size (rmul u c) <= size c.
Proof. intros Hu. pose proof (zm u c) as Hm. rewrite Hu in Hm. lia. Qed.
Lemma emb_r (u c : G) : size u = 1 -> size c <= top -> rmul (emb c) (emb u) = emb (rmul c u).
Proof. intros Hu Hc. pose proof top4 as H4. apply (P_IntProg.w_mul c u); [exact Hc|change top with (2 ^ prec); lia|lia]. Qed.
Lemma emb_l (u c : G) : size u = 1 -> size c <= top -> rmul (emb u) (emb c) = emb (rmul u c).
Proof. intros Hu Hc. pose proof top4 as H4. apply (P_IntProg.w_mul u c); [change top with (2 ^ prec); lia|exact Hc|lia]. Qed.

(** Products of coefficient functions. *)
Lemma act_size o (a : G) : size (act o a) <= size a.
Proof. destruct o; cbn [act]; [exact (zp a)|apply Z.le_refl|pose proof (P_IntProg.z_neg a) as E; lia]. Qed.
Lemma gp_total n Q P (x y : N -> G) : total n (gp n Q P x y) <= total n x * total n y.
Proof.
  transitivity (sumI n (fun k => sumI n (fun i => size (x i) * size (y (N.lxor i k))))).
  - apply tle. intros k _. unfold gp, sumI at 1. eapply Z.le_trans; [apply (s_sum (fun i => act (gsign n Q P i (N.lxor i k)) (rmul (x i) (y (N.lxor i k)))))|].
    apply zsum_le. intros i _. eapply Z.le_trans; [apply act_size|]. apply zm.
  - rewrite (sumI_swap (T := Z)). transitivity (sumI n (fun i => size (x i) * total n y)).
    + apply tle. intros i Hi. rewrite (sumI_lxor_l (T := Z) n i (fun t => size (y t)) Hi).
      apply Z.eq_le_incl. symmetry. exact (sumI_mul_l (T := Z) n (size (x i)) (fun k => size (y (N.lxor i k)))).
    + apply Z.eq_le_incl. symmetry. exact (sumI_mul_r (T := Z) n (total n y) (fun i => size (x i))).
Qed.

Section MV.
Context {md : Mode}.
Variables (sg : list tok) (A : algebra).
Hypothesis D : declared sg A.
Hypothesis Hl : (length sg < 63)%nat.
Let HS := declared_nn sg A D.
Local Notation n := (nonnull sg).
Local Notation d := (a_dim A).
Let s := (d - n)%nat.
Let Hn : (n <= d)%nat := std_nn A n HS.
Let Hs : d = (n + s)%nat.
Proof. unfold s. lia. Qed.
Local Notation h := (half n).
Local Notation blkg x v := (phi ipw idx_mask (pad n (blk_of n x v))).

Lemma blk_size (x : N -> G) v : total (2 * h) (blkg x v) <= sumI n (blk_of n (fun t => size (x t)) v).
Proof.
  rewrite <- (zsum_pad n). apply tle. intros t _. unfold phi. eapply Z.le_trans; [apply unit_r, size_ipw|]. unfold pad. destruct (t <? pow2 n)%N; [apply Z.le_refl|].
  change (size r0) with 0. apply Z.le_refl.
Qed.
Lemma blk_emb (x' : N -> K) (x : N -> G) v : (forall k, (k < pow2 d)%N -> x' k = emb (x k)) -> total d x <= top -> (v < pow2 s)%N ->
  forall t, (t < pow2 (2 * h))%N -> blkg x' v t = emb (blkg x v t).
Proof.
  intros Hx Ht Hv t _. unfold phi. rewrite <- emb_ipw.
  assert (E : pad n (blk_of n x' v) t = emb (pad n (blk_of n x v) t) /\ size (pad n (blk_of n x v) t) <= top).
  { unfold pad. destruct (N.ltb_spec t (pow2 n)) as [Hn'|Hn'].
    - unfold blk_of. assert (Hk : (pow2 n * v + t < pow2 d)%N) by (rewrite Hs; apply block_lt; auto). split; [apply Hx; exact Hk|].
      eapply Z.le_trans; [|exact Ht]. apply (tone d (fun t => size (x t))); [intros; apply zp|exact Hk].
    - split; [symmetry; apply w_0|]. change (size r0) with 0. pose proof top4. change top with (2 ^ prec). lia. }
  destruct E as [-> Hsz]. apply emb_r; [apply size_ipw|exact Hsz].
Qed.
Lemma blk_total (x : N -> G) v : (v < pow2 s)%N -> total (2 * h) (blkg x v) <= total d x.
Proof. intros Hv. eapply Z.le_trans; [apply blk_size|]. rewrite Hs. apply (zsum_block_le n s (fun t => size (x t))); [intros; apply zp|exact Hv]. Qed.

Lemma frep_emb (x' : N -> K) (x : N -> G) : (forall k, (k < pow2 d)%N -> x' k = emb (x k)) -> total d x <= top ->
  forall v i j, (v < pow2 s)%N -> (i < pow2 h)%N -> (j < pow2 h)%N -> frep sg x' v i j = emb (frep sg x v i j).
Proof.
  intros Hx Ht v i j Hv Hi Hj. unfold frep. apply cl_emb; auto.
  - apply blk_emb; auto.
  - eapply Z.le_trans; [apply blk_total; exact Hv|exact Ht].
Qed.

(** Transforming back what is the transform of small integers. *)
Lemma icoef_emb (Z' : N -> N -> N -> K) (x : N -> G) : (forall v i j, (v < pow2 s)%N -> (i < pow2 h)%N -> (j < pow2 h)%N -> Z' v i j = emb (frep sg x v i j)) -> 4 * total d x <= top ->
  forall k, (k < pow2 d)%N -> icoef sg Z' k = emb (x k).
Proof.
  intros HZ Ht k Hk. rewrite Hs in Hk. apply block_split in Hk as (w & i & -> & Hw & Hi). rewrite (icoef_block sg A D Hl) by auto. unfold phi.
  assert (Hi2 : (i < pow2 (2 * h))%N) by (eapply N.lt_le_trans; [exact Hi|]; apply pow2_le; apply half_le).
  assert (B := blk_total x w Hw).
  rewrite (icl_emb half_gauss h (Z' w) (blkg x w)); [|intros a b Ha Hb; apply HZ; auto|lia|exact Hi2].
  rewrite <- emb_ipn, emb_r.
  - f_equal. change (phi ipn idx_mask (blkg x w) i = x (pow2 n * w + i)%N). rewrite phi_inv by apply ipw_ipn. unfold pad. apply N.ltb_lt in Hi. rewrite Hi. reflexivity.
  - apply size_ipn.
  - assert (P := tone (2 * h) (fun t => size (blkg x w t)) i ltac:(intros; apply zp) Hi2). pose proof (tpos d x). cbv beta in P. lia.
Qed.

Lemma prod_emb (x' y' : N -> K) (x y : N -> G) : (forall k, (k < pow2 d)%N -> x' k = emb (x k)) -> (forall k, (k < pow2 d)%N -> y' k = emb (y k)) ->
  total d x <= top -> total d y <= top -> 4 * (total d x * total d y) <= top ->
  forall k, (k < pow2 d)%N -> icoef sg (wm (mmulf h) madd mneg malpha s (frep sg x') (frep sg y')) k = emb (gp d 0 (a_proj A) x y k).
Proof.
  intros Hx Hy Tx Ty Txy k Hk. assert (Px := tpos d x). assert (Py := tpos d y).
  set (p := fun v => sumI n (blk_of n (fun t => size (x t)) v)). set (q := fun v => sumI n (blk_of n (fun t => size (y t)) v)).
  assert (Sp : sumI s p = total d x). { unfold p. rewrite zsum_blocks, <- Hs. reflexivity. }
  assert (Sq : sumI s q = total d y). { unfold q. rewrite zsum_blocks, <- Hs. reflexivity. }
  apply icoef_emb; [|pose proof (gp_total d 0 (a_proj A) x y); lia|exact Hk].
  intros v i j Hv Hi Hj.
  destruct (wm_emb h s (frep sg x') (frep sg y') (frep sg x) (frep sg y) p q) with (w := v) (i := i) (j := j) as [E _]; auto.
  - intros; apply frep_emb; auto.
  - intros; apply frep_emb; auto.
  - intros w a Hw Ha. unfold frep. eapply Z.le_trans; [apply cl_row; exact Ha|]. apply blk_size.
  - intros w a b Hw Ha Hb. unfold frep. eapply Z.le_trans; [apply cl_size; auto|]. apply blk_size.
  - intros w Hw. apply zI_pos. intros; apply zp.
  - intros w Hw. apply zI_pos. intros; apply zp.
  - lia.
  - lia.
  - rewrite Sp, Sq. nia.
  - rewrite E. f_equal. symmetry. exact (frep_mul (F := Z) sg A D Hl x y v Hv i j Hi Hj).
Qed.
End MV.
End Gauss.
