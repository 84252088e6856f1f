(** The ring laws that rounding breaks hold for integer coefficients. *)
From Verif Require Export P_IntProg2.
From Coq Require Import Lia ZArith.
Local Open Scope Z_scope.

Section Laws.
Context {R F : Type} {RR : RingOps R} {LR : RingLaws R} {CR : ConjOps R}
  {RF : RingOps F} {CF : ConjOps F} {W : NumLaws F} {EM : Emb R F} {EL : EmbLaws R F} {m : Mode} {H : HashOrder}.
Local Notation size := (@size R F EM).
Local Notation top := (@top R F EM).
Local Notation emb := (@emb R F EM).

Variable sg : list tok.
Variable A : algebra.
Hypothesis D : declared sg A.
Local Notation d := (a_dim A).
Local Notation AOK := (declared_ok sg A D).
Local Notation gm := (gp d (a_imag A) (a_proj A)).
Local Notation "'n2'" := (2 ^ Z.of_nat d).

Lemma zI_const n (f : N -> Z) c : (forall i, (i < pow2 n)%N -> f i <= c) -> sumI n f <= 2 ^ Z.of_nat n * c.
Proof.
  intros Hf. unfold sumI. assert (E : 2 ^ Z.of_nat n = Z.of_nat (length (idxs n))).
  { unfold idxs. rewrite map_length, seq_length, Nat2Z.inj_pow. reflexivity. }
  rewrite E. clear E. assert (Hf' : forall i, In i (idxs n) -> f i <= c) by (intros i Hi; apply Hf, in_idxs, Hi). clear Hf. revert Hf'.
  induction (idxs n) as [|i l IH]; intros Hf; cbn [suml length]; [cbn; lia|]. specialize (IH (fun j Hj => Hf j (or_intror Hj))). specialize (Hf i (or_introl eq_refl)).
  rewrite Nat2Z.inj_succ. change (f i + suml f l <= Z.succ (Z.of_nat (length l)) * c). nia.
Qed.
Lemma sp (a : R) : 0 <= size a. Proof. exact (z_pos a). Qed.
Lemma n2_pos : 1 <= n2. Proof. assert (0 < n2) by (apply Z.pow_pos_nonneg; lia). lia. Qed.

(** x stands for f, of size up to B. *)
Definition upto {S} {St : Storage F S} {SL : StorageLaws F S} (B : Z) (x : S) (f : N -> R) : Prop :=
  forall i, (i < pow2 d)%N -> rd x i = emb (f i) /\ size (f i) <= B.
Lemma upto_ex {S} {St : Storage F S} {SL : StorageLaws F S} B (x : S) : holds_upto (R := R) A B x -> exists f, upto B x f.
Proof.
  intros Hx. assert (G : forall n, exists f : N -> R, forall i, (i < N.of_nat n)%N -> (i < pow2 d)%N -> rd x i = emb (f i) /\ size (f i) <= B).
  { induction n as [|n (f & Hf)]; [exists (fun _ => r0); intros; lia|]. destruct (N.lt_ge_cases (N.of_nat n) (pow2 d)) as [Hn|Hn].
    - destruct (Hx _ Hn) as (c & Hc). exists (fun i => if (i =? N.of_nat n)%N then c else f i). intros i Hi Hi'.
      destruct (N.eqb_spec i (N.of_nat n)) as [->|Hne]; [exact Hc|]. apply Hf; lia.
    - exists f. intros i Hi Hi'. apply Hf; lia. }
  destruct (G (N.to_nat (pow2 d))) as (f & Hf). exists f. intros i Hi. apply Hf; lia.
Qed.
Lemma upto_sees {S} {St : Storage F S} {SL : StorageLaws F S} B (x : S) f : B <= top -> upto B x f -> sees A x f.
Proof. intros HB Hx i Hi. destruct (Hx i Hi). split; [auto|lia]. Qed.

Lemma gm_upto (f g : N -> R) B C i : 0 <= B -> (forall j, (j < pow2 d)%N -> size (f j) <= B) -> (forall j, (j < pow2 d)%N -> size (g j) <= C) -> (i < pow2 d)%N ->
  sumI d (fun j => size (f j) * size (g (N.lxor j i))) <= n2 * (B * C).
Proof.
  intros HB Hf Hg Hi. apply zI_const. intros j Hj. apply Z.mul_le_mono_nonneg; auto using sp. apply Hg, lxor_lt; auto.
Qed.
(** Coefficients of size up to B and C multiply exactly if 2^d B C is at most [top]. *)
Lemma mul_upto K (x y : store K F) f g B C : valid A x -> valid A y -> upto B x f -> upto C y g -> 0 <= B -> 0 <= C -> B <= top -> C <= top -> n2 * (B * C) <= top ->
  exists z, mv_mul A x y = Ok z /\ valid A z /\ upto (n2 * (B * C)) z (gm f g).
Proof.
  intros Hx Hy Hf Hg B0 C0 HB HC Ht. assert (Hs : forall i, (i < pow2 d)%N -> sumI d (fun j => size (f j) * size (g (N.lxor j i))) <= n2 * (B * C)).
  { intros i Hi. apply gm_upto; auto; intros j Hj; [apply Hf|apply Hg]; auto. }
  destruct (mul_fitx sg A D K x y f g Hx Hy (upto_sees B x f HB Hf) (upto_sees C y g HC Hg)) as (z & E & Hz & Hc).
  { intros i Hi. specialize (Hs i Hi). lia. }
  exists z. split; [exact E|]. split; [exact Hz|]. intros i Hi. split; [apply Hc; auto|]. eapply Z.le_trans; [apply gp_size|auto].
Qed.
Lemma add_upto K (x y : store K F) f g B C : valid A x -> valid A y -> upto B x f -> upto C y g -> 0 <= B -> 0 <= C -> B + C <= top ->
  exists z, mv_add x y = Ok z /\ valid A z /\ upto (B + C) z (fun i => radd (f i) (g i)).
Proof.
  intros Hx Hy Hf Hg B0 C0 Ht. destruct (add_ok A x y Hx Hy) as (z & E & Hz & Hc). exists z. split; [exact E|]. split; [exact Hz|].
  intros i Hi. destruct (Hf i Hi) as [E1 S1], (Hg i Hi) as [E2 S2]. pose proof (z_add (RF := RF) (CF := CF) (f i) (g i)). split; [|lia].
  rewrite (rd_coef d) in * by auto. rewrite Hc, E1, E2. apply (w_add (R := R)); lia.
Qed.

Lemma same_res {S S'} {St : Storage F S} {SL : StorageLaws F S} {St' : Storage F S'} {SL' : StorageLaws F S'} (r : res S) (r' : res S') z z' f g B C : r = Ok z -> r' = Ok z' -> valid A z -> valid A z' ->
  upto B z f -> upto C z' g -> B <= top -> C <= top -> (forall i, (i < pow2 d)%N -> f i = g i) -> same_result (R := R) A r r'.
Proof.
  intros E E' Hz Hz' Hf Hg HB HC He. exists z, z'. split; [exact E|]. split; [exact E'|]. split; [exact Hz|]. split; [exact Hz'|].
  split; [intros i Hi; exists (f i); destruct (Hf i Hi); split; [auto|lia]|]. intros i Hi. destruct (Hf i Hi) as [-> S1], (Hg i Hi) as [-> S2]. rewrite He by auto.
  split; [reflexivity|]. rewrite He in S1 by auto. rewrite (w_eqb (R := R) (g i) (g i)) by lia. apply reqb_spec. reflexivity.
Qed.

Theorem int_assoc K (x y z : store K F) B : valid A x -> valid A y -> valid A z -> holds_upto (R := R) A B x -> holds_upto (R := R) A B y -> holds_upto (R := R) A B z ->
  1 <= B -> n2 * n2 * (B * B * B) <= top ->
  same_result (R := R) A (w <- mv_mul A x y ;; mv_mul A w z) (w <- mv_mul A y z ;; mv_mul A x w).
Proof.
  intros Hx Hy Hz Ix Iy Iz HB Ht. pose proof n2_pos as Hn. destruct (upto_ex B x Ix) as (f & Hf), (upto_ex B y Iy) as (g & Hg), (upto_ex B z Iz) as (h & Hh).
  assert (E3 : n2 * (n2 * (B * B) * B) = n2 * n2 * (B * B * B)) by ring. assert (E4 : n2 * (B * (n2 * (B * B))) = n2 * n2 * (B * B * B)) by ring.
  set (N2 := n2) in *. assert (P1 : 1 <= N2 * B) by nia. assert (P2 : B <= N2 * (B * B)) by nia. set (q := N2 * (B * B)) in *.
  assert (Eq : N2 * N2 * (B * B * B) = q * (N2 * B)) by (unfold q; ring). assert (P3 : q <= q * (N2 * B)) by nia.
  destruct (mul_upto K x y f g B B Hx Hy Hf Hg) as (u & Eu & Hu & Uu); try lia.
  destruct (mul_upto K y z g h B B Hy Hz Hg Hh) as (v & Ev & Hv & Uv); try lia.
  destruct (mul_upto K u z _ h _ B Hu Hz Uu Hh) as (s & Es & Hs & Us); try lia.
  destruct (mul_upto K x v f _ B _ Hx Hv Hf Uv) as (t & Et & Htt & Ut); try lia.
  rewrite Eu, Ev. cbn [bind]. eapply same_res; [exact Es|exact Et|exact Hs|exact Htt|exact Us|exact Ut|lia|lia|].
  intros i Hi. apply gp_assoc; auto.
Qed.
Theorem int_distr K (x y z : store K F) B : valid A x -> valid A y -> valid A z -> holds_upto (R := R) A B x -> holds_upto (R := R) A B y -> holds_upto (R := R) A B z ->
  1 <= B -> 2 * n2 * (B * B) <= top ->
  same_result (R := R) A (w <- mv_add y z ;; mv_mul A x w) (u <- mv_mul A x y ;; v <- mv_mul A x z ;; mv_add u v) /\
  same_result (R := R) A (w <- mv_add y z ;; mv_mul A w x) (u <- mv_mul A y x ;; v <- mv_mul A z x ;; mv_add u v).
Proof.
  intros Hx Hy Hz Ix Iy Iz HB Ht. pose proof n2_pos as Hn. destruct (upto_ex B x Ix) as (f & Hf), (upto_ex B y Iy) as (g & Hg), (upto_ex B z Iz) as (h & Hh).
  assert (T1 : B <= n2 * (B * B)) by nia. assert (T3 : n2 * (B * (B + B)) <= top) by nia. assert (T4 : n2 * ((B + B) * B) <= top) by nia. assert (T5 : n2 * (B * B) + n2 * (B * B) <= top) by nia. assert (T6 : n2 * (B * B) <= top) by nia.
  assert (T7 : B + B <= top) by nia. assert (T8 : 0 <= n2 * (B * B)) by nia.
  destruct (add_upto K y z g h B B Hy Hz Hg Hh) as (w & Ew & Hw & Uw); try lia. rewrite Ew. cbn [bind]. split.
  - destruct (mul_upto K x w f _ B _ Hx Hw Hf Uw) as (s & Es & Hs & Us); try lia.
    destruct (mul_upto K x y f g B B Hx Hy Hf Hg) as (u & Eu & Hu & Uu); try lia.
    destruct (mul_upto K x z f h B B Hx Hz Hf Hh) as (v & Ev & Hv & Uv); try lia.
    destruct (add_upto K u v _ _ _ _ Hu Hv Uu Uv) as (t & Et & Htt & Ut); try lia.
    rewrite Eu. cbn [bind]. rewrite Ev. cbn [bind]. eapply same_res; [exact Es|exact Et|exact Hs|exact Htt|exact Us|exact Ut|exact T3|exact T5|].
    intros i Hi. apply gp_add_r.
  - destruct (mul_upto K w x _ f _ B Hw Hx Uw Hf) as (s & Es & Hs & Us); try lia.
    destruct (mul_upto K y x g f B B Hy Hx Hg Hf) as (u & Eu & Hu & Uu); try lia.
    destruct (mul_upto K z x h f B B Hz Hx Hh Hf) as (v & Ev & Hv & Uv); try lia.
    destruct (add_upto K u v _ _ _ _ Hu Hv Uu Uv) as (t & Et & Htt & Ut); try lia.
    rewrite Eu. cbn [bind]. rewrite Ev. cbn [bind]. eapply same_res; [exact Es|exact Et|exact Hs|exact Htt|exact Us|exact Ut|exact T4|exact T5|].
    intros i Hi. apply gp_add_l.
Qed.
End Laws.
