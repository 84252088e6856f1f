(** Expressions of transforms of integer multivectors. *)
From Verif Require Export Spec_IntTran P_IntFft5.
From Coq Require Import ZArith Lia Floats.SpecFloat.
Local Open Scope Z_scope.

Section Fmt.
Variables prec emax : Z.
Hypothesis Hf : ieee prec emax.
Let Hp : 1 < prec := proj1 (ieee_bits prec emax Hf).
Let He : prec < emax := proj2 (ieee_bits prec emax Hf).
Local Instance LO : RingOps flt := flt_ops prec emax.
Local Instance LD : DivOps flt := flt_div prec emax.
Local Instance LW : NumLaws flt := flt_laws prec emax.
Local Instance LV : RoundOps flt := flt_round prec emax.
Local Instance LR : RoundLaws flt := ieee_rounds prec emax Hf.
Local Notation G := (cplx Z).
Local Notation K := (cplx flt).
Local Notation ofz := (flt_of_Z prec emax).
Local Instance EG : Emb G K := gauss_emb prec emax.
Local Instance EL : EmbLaws G K := gauss_laws prec emax Hp He.
Local Notation emb := (@emb G K EG).
Local Notation size := (@size G K EG).

Context {md : Mode} {HH : HashOrder}.
Variables (sg : list tok) (A : algebra).
Hypothesis D : declared sg A.
Hypothesis Hl : (length sg < 63)%nat.
Let HS := declared_nn sg A D.
Local Notation n := (nonnull sg).
Local Notation d := (a_dim A).
Local Notation s := (d - n)%nat.
Local Notation h := (half n).
Let Hn : (n <= d)%nat := std_nn A n HS.
Local Notation total f := (sumI d (fun k => size (f k))).
Local Notation ph := (ph A).

(** r holds the transform of f, whose weight is at most w. *)
Definition inv (r : fftrepr flt) (f : N -> G) (w : Z) : Prop :=
  (exists X', arep h s r X' /\ forall v i j, (v < pow2 s)%N -> (i < pow2 h)%N -> (j < pow2 h)%N -> X' v i j = emb (frep sg (ph f) v i j)) /\
  total f <= w /\ w <= 2 ^ prec.

Lemma pt f : total (ph f) <= total f.
Proof. exact (ph_total prec emax Hp He A f). Qed.
Lemma inv_pos r f w : inv r f w -> 0 <= w.
Proof. intros (_ & Ht & _). pose proof (tpos d f). lia. Qed.
Lemma frep_size (f : N -> G) v i j : (v < pow2 s)%N -> (i < pow2 h)%N -> (j < pow2 h)%N -> size (frep sg f v i j) <= total f.
Proof.
  intros Hv Hi Hj. unfold frep. eapply Z.le_trans; [apply cl_size; auto|]. exact (blk_total prec emax Hp He sg A D Hl f v Hv).
Qed.
Lemma inv_size r f w v i j : inv r f w -> (v < pow2 s)%N -> (i < pow2 h)%N -> (j < pow2 h)%N -> size (frep sg (ph f) v i j) <= w.
Proof. intros (_ & Ht & _) Hv Hi Hj. pose proof (frep_size (ph f) v i j Hv Hi Hj). pose proof (pt f). lia. Qed.

Lemma frep_ph_add f g v i j : (v < pow2 s)%N -> frep sg (ph (fadd f g)) v i j = radd (frep sg (ph f) v i j) (frep sg (ph g) v i j).
Proof.
  intros Hv. etransitivity; [apply (frep_ext (F := Z) sg A D Hl) with (c' := fadd (ph f) (ph g)); [intros k Hk; unfold P_IntFft4.ph, fadd; apply mul_add_r|exact Hv]|].
  exact (hm_add (F := Z) sg (blk_of n (ph f) v) (blk_of n (ph g) v) i j).
Qed.
Lemma frep_ph_neg f v i j : (v < pow2 s)%N -> frep sg (ph (fneg f)) v i j = rneg (frep sg (ph f) v i j).
Proof.
  intros Hv. etransitivity; [apply (frep_ext (F := Z) sg A D Hl) with (c' := fneg (ph f)); [intros k Hk; unfold P_IntFft4.ph, fneg; apply mul_neg_r|exact Hv]|].
  exact (hm_neg (F := Z) sg (blk_of n (ph f) v) i j).
Qed.
Lemma total_add f g : total (fadd f g) <= total f + total g.
Proof. rewrite <- tadd. apply tle. intros k _. apply za. Qed.
Lemma total_neg f : total (fneg f) = total f.
Proof. apply (sumI_ext (T := Z)). intros k _. exact (P_IntProg.z_neg (f k)). Qed.

Lemma inv_ext r f g w : inv r f w -> (forall k, (k < pow2 d)%N -> f k = g k) -> inv r g w.
Proof.
  intros ((X' & HX & E) & Ht & Hw) Hfg. split; [|split; [|exact Hw]].
  - exists X'. split; [exact HX|]. intros v i j Hv Hi Hj. rewrite (E v i j Hv Hi Hj). f_equal.
    apply (frep_ext (F := Z) sg A D Hl); [intros k Hk; unfold P_IntFft4.ph; rewrite Hfg by exact Hk; reflexivity|exact Hv].
  - eapply Z.le_trans; [|exact Ht]. apply Z.eq_le_incl. apply (sumI_ext (T := Z)). intros k Hk. rewrite Hfg by exact Hk. reflexivity.
Qed.
Lemma inv_add r r' f g w w' : inv r f w -> inv r' g w' -> w + w' <= 2 ^ prec -> exists z, fr_add r r' = Ok z /\ inv z (fadd f g) (w + w').
Proof.
  intros I1 I2 Hw. pose proof I1 as ((X' & HX & EX) & TX & _). pose proof I2 as ((Y' & HY & EY) & TY & _).
  destruct (a3_zip_ok h s radd r r' X' Y' HX HY) as (z & E & Hz). exists z. split; [exact E|]. split; [|split; [pose proof (total_add f g); lia|exact Hw]].
  eexists. split; [exact Hz|]. intros v i j Hv Hi Hj. cbv beta. rewrite EX, EY, frep_ph_add by auto. apply wa.
  pose proof (inv_size r f w v i j I1 Hv Hi Hj). pose proof (inv_size r' g w' v i j I2 Hv Hi Hj). change (@top G K EG) with (2 ^ prec). lia.
Qed.
Lemma inv_neg r f w : inv r f w -> inv (fr_neg r) (fneg f) w.
Proof.
  intros ((X' & HX & EX) & TX & Hw). split; [|rewrite total_neg; auto]. eexists. split; [exact (a3_map_ok h s rneg r X' HX)|].
  intros v i j Hv Hi Hj. cbv beta. rewrite EX, frep_ph_neg by auto. exact (P_IntProg.w_neg _).
Qed.
Lemma inv_sub r r' f g w w' : inv r f w -> inv r' g w' -> w + w' <= 2 ^ prec -> exists z, fr_sub r r' = Ok z /\ inv z (fadd f (fneg g)) (w + w').
Proof.
  intros I1 I2 Hw. pose proof I1 as ((X' & HX & EX) & TX & _). pose proof I2 as ((Y' & HY & EY) & TY & _).
  destruct (a3_zip_ok h s rsub r r' X' Y' HX HY) as (z & E & Hz). exists z. split; [exact E|]. split; [|split; [pose proof (total_add f (fneg g)); pose proof (total_neg g); lia|exact Hw]].
  eexists. split; [exact Hz|]. intros v i j Hv Hi Hj. cbv beta. rewrite EX, EY, frep_ph_add, frep_ph_neg, <- sub_def by auto. apply ws.
  pose proof (inv_size r f w v i j I1 Hv Hi Hj). pose proof (inv_size r' g w' v i j I2 Hv Hi Hj). change (@top G K EG) with (2 ^ prec). lia.
Qed.
Lemma inv_mul r r' f g w w' : inv r f w -> inv r' g w' -> w * w' <= 2 ^ prec -> exists z, fr_mul r r' = Ok z /\ inv z (gp d (a_imag A) (a_proj A) f g) (w * w').
Proof.
  intros I1 I2 Hw. assert (P1 := inv_pos _ _ _ I1). assert (P2 := inv_pos _ _ _ I2).
  pose proof I1 as ((X' & HX & EX) & TX & TX'). pose proof I2 as ((Y' & HY & EY) & TY & TY').
  assert (M : total f * total g <= w * w') by (apply Z.mul_le_mono_nonneg; auto; apply tpos).
  assert (M' : total (ph f) * total (ph g) <= total f * total g) by (apply Z.mul_le_mono_nonneg; try apply tpos; apply pt).
  assert (Q1 := pt f). assert (Q2 := pt g).
  destruct (wmul_f h s r r' X' Y' HX HY) as (z & E & Hz). exists z. split; [exact E|]. split; [|split; [|exact Hw]].
  - eexists. split; [exact Hz|]. intros v i j Hv Hi Hj.
    set (p := fun v => sumI n (blk_of n (fun t => size (ph f t)) v)). set (q := fun v => sumI n (blk_of n (fun t => size (ph g t)) v)).
    assert (Hs : (n + s = d)%nat) by lia.
    assert (Sp : sumI s p = total (ph f)). { unfold p. rewrite zsum_blocks, Hs. reflexivity. }
    assert (Sq : sumI s q = total (ph g)). { unfold q. rewrite zsum_blocks, Hs. reflexivity. }
    destruct (wm_emb h s X' Y' (frep sg (ph f)) (frep sg (ph g)) p q) with (w := v) (i := i) (j := j) as [E' _]; auto.
    + intros u a Hu Ha. unfold frep. eapply Z.le_trans; [apply cl_row; exact Ha|]. exact (blk_size prec emax Hp He sg (ph f) u).
    + intros u a b Hu Ha Hb. unfold frep. eapply Z.le_trans; [apply cl_size; auto|]. exact (blk_size prec emax Hp He sg (ph g) u).
    + intros u Hu. apply zI_pos. intros; apply zp.
    + intros u Hu. apply zI_pos. intros; apply zp.
    + rewrite Sp. change (@top G K EG) with (2 ^ prec). lia.
    + rewrite Sq. change (@top G K EG) with (2 ^ prec). lia.
    + rewrite Sp, Sq. change (@top G K EG) with (2 ^ prec). lia.
    + rewrite E'. f_equal. etransitivity; [symmetry; exact (frep_mul (F := Z) sg A D Hl (ph f) (ph g) v Hv i j Hi Hj)|].
      apply (frep_ext (F := Z) sg A D Hl); [intros k Hk; apply ph_gp; exact Hk|exact Hv].
  - eapply Z.le_trans; [|exact M]. exact (gp_total prec emax Hp He d (a_imag A) (a_proj A) f g).
Qed.

Local Notation zc f := (fun k : N => mkC (f k) 0 : G).
Lemma wl (l : list Z) : forall m, length l = (2 ^ m)%nat -> weight m (fun i => nth (N.to_nat i) l 0) = tweight (TIn l).
Proof.
  intros m Hm. unfold weight, sumI. cbn [tweight]. unfold idxs. rewrite <- Hm. clear m Hm.
  transitivity (suml (fun i => Z.abs (nth i l 0)) (seq 0 (length l))).
  - rewrite suml_map. apply suml_ext. intros i _. cbv beta. rewrite Nat2N.id. reflexivity.
  - induction l as [|c l IH]; [reflexivity|]. cbn [length seq suml fold_right nth]. change (@radd Z ZOps) with Z.add. f_equal.
    rewrite <- IH, <- seq_shift, suml_map. reflexivity.
Qed.
Lemma inv_in l : length l = (2 ^ d)%nat -> tweight (TIn l) <= 2 ^ prec ->
  exists r, mv_fft (F := flt) A (mkArr d (map ofz l) : arr flt) = Ok r /\ inv r (zc (fun i => nth (N.to_nat i) l 0)) (tweight (TIn l)).
Proof.
  intros Hlen Hw. set (x := mkArr d (map ofz l)). assert (Hx : arr_wf d x) by (split; [rewrite (declared_dim _ _ D); lia|split; [reflexivity|cbn [arr_data x]; rewrite map_length; exact Hlen]]).
  set (f := fun i => nth (N.to_nat i) l 0).
  assert (HC : holdsC prec emax A (T := flt) (IC := RealInto) x (zc f)).
  { intros k Hk. unfold arr_coef. cbn [arr_data x into_complex RealInto Spec_IntProg.emb gauss_emb c_re c_im]. unfold f. f_equal.
    exact (map_nth ofz l 0 (N.to_nat k)). }
  assert (TW : total (zc f) = tweight (TIn l)). { rewrite <- (wl l d Hlen). exact (weight_zc prec emax sg A Hl f). }
  destruct (r_fft (T := flt) (IC := RealInto) sg A D Hl eq_refl x Hx) as (r & E & Hr). exists r. split; [exact E|]. split; [|split; [apply Z.eq_le_incl; exact TW|exact Hw]].
  eexists. split; [exact Hr|]. intros v i j Hv Hi Hj. apply (frep_emb prec emax Hp He sg A D Hl); auto.
  - intros k Hk. apply (ph_emb prec emax Hp He A x (zc f) HC); [|exact Hk]. change (total (zc f) <= 2 ^ prec). lia.
  - change (total (ph (zc f)) <= 2 ^ prec). pose proof (pt (zc f)). lia.
Qed.

Lemma run_inv e : trange d (2 ^ prec) e -> exists r, trun prec emax A e = Ok r /\ inv r (zc (tvalue sg d e)) (tweight e).
Proof.
  induction e as [l|a IHa b IHb|a IHa b IHb|a IHa|a IHa b IHb]; cbn [trange trun].
  - intros (Hw & Hlen). apply inv_in; auto.
  - intros (Hw & Ha & Hb). destruct (IHa Ha) as (r & -> & I1). destruct (IHb Hb) as (r' & -> & I2). cbn [bind].
    destruct (inv_add r r' _ _ _ _ I1 I2 Hw) as (z & E & I3). exists z. split; [exact E|]. apply (inv_ext z _ _ _ I3). reflexivity.
  - intros (Hw & Ha & Hb). destruct (IHa Ha) as (r & -> & I1). destruct (IHb Hb) as (r' & -> & I2). cbn [bind].
    destruct (inv_sub r r' _ _ _ _ I1 I2 Hw) as (z & E & I3). exists z. split; [exact E|]. apply (inv_ext z _ _ _ I3). intros k _. reflexivity.
  - intros (Hw & Ha). destruct (IHa Ha) as (r & -> & I1). cbn [bind]. exists (fr_neg r). split; [reflexivity|]. apply (inv_ext _ _ _ _ (inv_neg r _ _ I1)). reflexivity.
  - intros (Hw & Ha & Hb). destruct (IHa Ha) as (r & -> & I1). destruct (IHb Hb) as (r' & -> & I2). cbn [bind].
    destruct (inv_mul r r' _ _ _ _ I1 I2 Hw) as (z & E & I3). exists z. split; [exact E|]. apply (inv_ext z _ _ _ I3). intros k Hk. cbn [tvalue].
    rewrite (spec_mul_gp _ _ _ _ _ _ (declared_metric sg A D) k Hk). symmetry. exact (into_gp (F := Z) (T := Z) (IC := RealInto) d (a_imag A) (a_proj A) (tvalue sg d a) (tvalue sg d b) k).
Qed.

Theorem run_exact e : trange d (2 ^ prec) e -> 4 * tweight e <= 2 ^ prec ->
  exists z : store KDense flt, (R <- trun prec emax A e ;; fr_ifft A R) = Ok (z : arr flt) /\ valid A z /\
  forall i, (i < 2 ^ N.of_nat d)%N -> rd z i = ofz (tvalue sg d e i).
Proof.
  intros Hr Hw. destruct (run_inv e Hr) as (r & -> & I1). assert (P0 := inv_pos _ _ _ I1). destruct I1 as ((X' & HX & EX) & TX & _). cbn [bind].
  set (f := zc (tvalue sg d e)) in *. assert (Q := pt f). assert (TX' : total f <= tweight e) by exact TX.
  destruct (r_ifft (T := flt) (FC := RealFrom) sg A D Hl eq_refl r X' HX) as (z & Ez & Hz & Hc). exists z. split; [exact Ez|]. split; [exact Hz|].
  intros i Hi. rewrite (rd_dense A z i Hz Hi). etransitivity; [exact (Hc i Hi)|].
  assert (E1 : icoef sg X' i = emb (ph f i)).
  { apply (icoef_emb prec emax Hp He sg A D Hl); auto. change (4 * total (ph f) <= 2 ^ prec). lia. }
  rewrite E1. assert (E2 := ph_back prec emax Hp He A (ph f) f i eq_refl).
  assert (S1 : size (ph f i) <= 2 ^ prec).
  { eapply Z.le_trans; [apply (tone d (fun k => size (ph f k))); [intros; apply zp|exact Hi]|]. change (total (ph f) <= 2 ^ prec). lia. }
  exact (f_equal (from_complex (FromCplx := RealFrom)) (E2 S1)).
Qed.
End Fmt.
