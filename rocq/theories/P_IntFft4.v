(** Multivectors of small integers: transforms and the product through them are exact. *)
From Verif Require Export P_IntFft3 P_IntProg3.
From Coq Require Import ZArith Lia Floats.SpecFloat.
Local Open Scope Z_scope.

Section Fmt.
Variables prec emax : Z.
Hypothesis Hp : 1 < prec.
Hypothesis He : prec < emax.
Local Instance HO' : RingOps flt := flt_ops prec emax.
Local Instance HD' : DivOps flt := flt_div prec emax.
Local Instance HW' : NumLaws flt := flt_laws prec emax.
Local Instance HV' : RoundOps flt := flt_round prec emax.
Hypothesis RL : RoundLaws flt.
Local Existing Instance RL.
Local Notation G := (cplx Z).
Local Notation K := (cplx flt).
Local Notation ofz := (flt_of_Z prec emax).
Local Notation gsz := (fun c : G => Z.abs (c_re c) + Z.abs (c_im c)).
Local Notation gem := (fun c : G => mkC (ofz (c_re c)) (ofz (c_im c)) : K).
Local Notation EG := (gauss_emb prec emax).
Local Notation emb := (@emb G K EG).
Local Notation size := (@size G K EG).

Section MV.
Context {md : Mode} {HH : HashOrder}.
Variables (sg : list tok) (A : algebra).
Hypothesis D : declared sg A.
Hypothesis Hl : (length sg < 63)%nat.
Local Notation d := (a_dim A).

Section T.
Context {T : Type} {RT : RingOps T} {WT : NumLaws T} {IC : IntoCplx T flt} {FC : FromCplx T flt}.
Hypothesis Hi0 : into_complex (r0 : T) = (r0 : K).
Hypothesis Hf0 : from_complex (r0 : K) = (r0 : T).
Definition holdsC (x : arr T) (f : N -> G) : Prop := forall k, (k < pow2 d)%N -> into_complex (arr_coef x k) = emb (f k).
Local Notation total f := (sumI d (fun k => size (f k))).
Definition ph (f : N -> G) (k : N) : G := rmul (ipn (popcount (N.land k (a_imag A)))) (f k).

Lemma ph_total f : total (ph f) <= total f.
Proof. apply tle. intros k _. unfold ph. apply (unit_l prec emax Hp He), (size_ipn prec emax). Qed.
Lemma ph_emb x f : holdsC x f -> total f <= 2 ^ prec -> forall k, (k < pow2 d)%N -> cfl A (arr_coef x) k = emb (ph f k).
Proof.
  intros Hx Ht k Hk. unfold cfl, ph. rewrite (Hx k Hk), <- (emb_ipn prec emax). apply (emb_l prec emax Hp He); [apply (size_ipn prec emax)|].
  eapply Z.le_trans; [|exact Ht]. apply (tone d (fun k => size (f k))); [intros; apply (zp (EL := gauss_laws prec emax Hp He))|exact Hk].
Qed.
Lemma ph_back (c : N -> G) (g : N -> G) k : c k = ph g k -> size (c k) <= 2 ^ prec ->
  rmul (ipw (popcount (N.land k (a_imag A)))) (emb (c k)) = emb (g k).
Proof.
  intros E Hs. rewrite <- (emb_ipw prec emax). rewrite (emb_l prec emax Hp He); [|apply (size_ipw prec emax)|exact Hs].
  f_equal. rewrite E. unfold ph. rewrite mul_assoc, ipw_ipn. apply mul_1_l.
Qed.
Lemma ph_gp (f g : N -> G) k : (k < pow2 d)%N -> gp d 0 (a_proj A) (ph f) (ph g) k = ph (gp d (a_imag A) (a_proj A) f g) k.
Proof.
  intros Hk. assert (E : forall x' k, ph x' k = cfun (F := Z) (T := G) (IC := CplxInto) A x' k) by (intros x' k'; unfold ph, cfun, phi; apply mul_comm).
  rewrite E, <- cfun_gp. apply gp_feq; auto; intros i Hi; apply E.
Qed.

Lemma back_core (x : arr T) f : arr_wf d x -> holdsC x f -> 4 * total f <= 2 ^ prec ->
  exists z : arr T, (X <- mv_fft (F := flt) A x ;; fr_ifft A X) = Ok z /\ arr_wf d z /\ forall k, (k < pow2 d)%N -> arr_coef z k = from_complex (emb (f k)).
Proof.
  intros Hx Hf Ht. assert (P0 : 0 <= total f) by (apply (tpos (EL := gauss_laws prec emax Hp He))). assert (Pf := ph_total f).
  destruct (r_fft (T := T) sg A D Hl Hi0 x Hx) as (r & E & Hr). rewrite E. cbn [bind].
  destruct (r_ifft (T := T) sg A D Hl Hf0 r _ Hr) as (z & Ez & Hz & Hc). exists z. split; [exact Ez|]. split; [exact Hz|].
  intros k Hk. rewrite Hc by auto. f_equal.
  rewrite (icoef_emb prec emax Hp He sg A D Hl _ (ph f)) with (k := k); auto.
  - apply ph_back; [reflexivity|]. assert (P1 : size (ph f k) <= total (ph f)) by (apply (tone d (fun k => size (ph f k))); [intros; apply (zp (EL := gauss_laws prec emax Hp He))|exact Hk]). lia.
  - intros v i j Hv Hi Hj. apply (frep_emb prec emax Hp He sg A D); auto; [|change (GE prec emax) with EG; change (@top G K EG) with (2 ^ prec); lia].
    intros t Htt. apply (ph_emb x f); auto. lia.
  - change (GE prec emax) with EG; change (@top G K EG) with (2 ^ prec). lia.
Qed.
Lemma prod_cores (x y : arr T) f g : arr_wf d x -> arr_wf d y -> holdsC x f -> holdsC y g -> total f <= 2 ^ prec -> total g <= 2 ^ prec -> 4 * (total f * total g) <= 2 ^ prec ->
  exists z : arr T, (X <- mv_fft (F := flt) A x ;; Y <- mv_fft A y ;; P <- fr_mul X Y ;; fr_ifft A P) = Ok z /\ arr_wf d z /\
  forall k, (k < pow2 d)%N -> arr_coef z k = from_complex (emb (gp d (a_imag A) (a_proj A) f g k)).
Proof.
  intros Hx Hy Hf Hg Tf Tg Tfg. assert (Pf := ph_total f). assert (Pg := ph_total g).
  assert (P0 : forall u, 0 <= total u) by (intros; apply (tpos (EL := gauss_laws prec emax Hp He))).
  assert (Pfg : total (ph f) * total (ph g) <= total f * total g) by (apply Z.mul_le_mono_nonneg; auto).
  destruct (r_fft (T := T) sg A D Hl Hi0 x Hx) as (r & E & Hr). rewrite E. cbn [bind].
  destruct (r_fft (T := T) sg A D Hl Hi0 y Hy) as (r' & E' & Hr'). rewrite E'. cbn [bind].
  destruct (wmul_f _ _ r r' _ _ Hr Hr') as (p & Ep & Hpp). change (fr_mul r r') with (wmul r r'). rewrite Ep. cbn [bind].
  destruct (r_ifft (T := T) sg A D Hl Hf0 p _ Hpp) as (z & Ez & Hz & Hc). exists z. split; [exact Ez|]. split; [exact Hz|].
  intros k Hk. rewrite Hc by auto. f_equal.
  rewrite (prod_emb prec emax Hp He sg A D Hl _ _ (ph f) (ph g)) with (k := k); auto.
  - apply ph_back; [apply ph_gp; exact Hk|].
    assert (P1 : size (gp d 0 (a_proj A) (ph f) (ph g) k) <= total (gp d 0 (a_proj A) (ph f) (ph g))) by (apply (tone d (fun k => size (gp d 0 (a_proj A) (ph f) (ph g) k))); [intros; apply (zp (EL := gauss_laws prec emax Hp He))|exact Hk]).
    assert (P2 : total (gp d 0 (a_proj A) (ph f) (ph g)) <= total (ph f) * total (ph g)) by (exact (gp_total prec emax Hp He d 0 (a_proj A) (ph f) (ph g))).
    assert (P3 : 0 <= total f * total g) by (apply Z.mul_nonneg_nonneg; auto). lia.
  - apply ph_emb; auto.
  - apply ph_emb; auto.
  - change (GE prec emax) with EG; change (@top G K EG) with (2 ^ prec). lia.
  - change (GE prec emax) with EG; change (@top G K EG) with (2 ^ prec). lia.
  - change (GE prec emax) with EG; change (@top G K EG) with (2 ^ prec). lia.
Qed.
End T.
End MV.
End Fmt.
