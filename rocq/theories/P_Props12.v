(** Property C44: completeness of the inverse for matrices of side at most 2. *)
From Verif Require Export P_Props11 P_Gauss2.
Local Open Scope nat_scope.

Section Complete.
Context {F R : Type} {RF : RingOps F} {LF : RingLaws F} {CF : CommLaws F} {DV : DivOps F} {FL : FieldLaws F} {FRl : FormallyReal F} {md : Mode} {HO : HashOrder}
  {NC : NormCmp (cplx F) R} {NZ : NormZero (cplx F) R} {NL : NormLaws (cplx F) R}.
Local Notation C := (cplx F).
Variables (sg : list tok) (A : algebra).
Hypothesis D : declared sg A.
Hypothesis Hl : length sg <= 2.
Hypothesis Hnd : nonnull sg = length sg.
Local Notation d := (a_dim A).
Local Notation h := (half (nonnull sg)).

Lemma c44_repr (X Y : fftrepr F) : repr_shape sg X -> repr_shape sg Y -> fr_mul Y X = fr_one A -> exists r, fr_inv X = Ok (Some r).
Proof.
  intros HX HY E. assert (E0 : d - nonnull sg = 0) by (pose proof (declared_dim _ _ D); lia). assert (Hl' : length sg < 63) by lia.
  assert (Hh : h <= 1) by (unfold half; destruct (nonnull sg) as [|[|[|?]]]; cbn; lia).
  destruct (shape_rep sg A D Hl' X HX) as (x & Hx). destruct (shape_rep sg A D Hl' Y HY) as (y & Hy). rewrite E0 in Hx, Hy.
  destruct (wmul_ok _ _ _ _ _ _ Hy Hx) as (z & Ez & Hz). destruct (one_arep (F := F) sg A D Hl') as (o & Eo & Ho). rewrite E0 in Ho. unfold fr_mul in E. rewrite Ez, Eo in E. injection E as ->.
  pose proof (arep_fun _ _ _ _ _ Hz Ho 0%N eq_refl) as Em. cbn [wm andb N.eqb] in Em.
  pose proof Hx as (Hr & Hc & Hlen & Hw). destruct X as [nr nc l]. cbn [t_nr t_nc t_mats] in *. destruct l as [|M [|M2 l]]; cbn in Hlen; try lia.
  specialize (Hw 0 ltac:(cbn; lia)). cbn [nth] in Hw. unfold fr_inv. cbn [t_mats]. assert (EM : nthr [M] 0 = Ok M) by reflexivity. rewrite EM. cbn [bind].
  destruct (matrix_inv_complete (R := R) (2 ^ h) M _ (nn (cl h (blk_of (2 * h) y (N.of_nat 0)))) ltac:(destruct h as [|[|?]]; cbn; lia) Hw) as (M' & EM').
  - intros i j Hi Hj. rewrite <- (mm_mmul h _ _ i j Hi Hj). unfold nn. rewrite Em by (apply of_nat_lt; auto). unfold delta. destruct (N.eqb_spec (N.of_nat i) (N.of_nat j)), (Nat.eqb_spec i j); auto; lia.
  - rewrite EM'. cbn [bind]. eexists. reflexivity.
Qed.
End Complete.

Section Api.
Context {T F R : Type} {RT : RingOps T} {LT : RingLaws T} {RF : RingOps F} {LF : RingLaws F} {CF : CommLaws F} {DV : DivOps F} {FL : FieldLaws F} {FRl : FormallyReal F}
  {IC : IntoCplx T F} {FC : FromCplx T F} {CV : ConvLaws T F} {md : Mode} {HO : HashOrder}
  {NC : NormCmp (cplx F) R} {NZ : NormZero (cplx F) R} {NL : NormLaws (cplx F) R}.
Local Notation MV := (store KDense T).
Variables (sg : list tok) (A : algebra).
Hypothesis D : declared sg A.
Hypothesis Hl : length sg <= 2.
Hypothesis Hnd : nonnull sg = length sg.

Lemma c44_mv (x y : MV) : valid A x -> valid A y -> both_ok (mv_mul A y x) (mv_one A) ->
  exists r : fftrepr F, (X <- mv_fft (F := F) A (x : arr T) ;; fr_inv X) = Ok (Some r).
Proof.
  intros Hx Hy (o & E1 & E2). assert (Hl' : length sg < 63) by lia.
  destruct (c38_total (T := T) (IC := IC) (F := F) sg A D Hl' x Hx) as (X & EX & SX). destruct (c38_total (T := T) (IC := IC) (F := F) sg A D Hl' y Hy) as (Y & EY & SY).
  rewrite EX. cbn [bind]. apply (c44_repr (R := R) sg A D Hl Hnd X Y SX SY).
  destruct (c39_repr (T := T) (IC := IC) (F := F) sg A D Hl' y x Hy Hx) as (P & EP & EP'). rewrite EX, EY in EP. cbn [bind] in EP. rewrite EP.
  destruct (c40_one (T := T) (IC := IC) (CV := CV) (F := F) sg A D Hl') as (P' & EO & EO'). rewrite EO. f_equal.
  assert (G : (Ok P : res (fftrepr F)) = Ok P'); [|injection G; auto].
  rewrite <- EP', <- EO'. transitivity (mv_fft (F := F) A (o : arr T)); [|symmetry].
  - exact (f_equal (fun r : res MV => z <- r ;; mv_fft (F := F) A (z : arr T)) E1).
  - exact (f_equal (fun r : res MV => z <- r ;; mv_fft (F := F) A (z : arr T)) E2).
Qed.
End Api.

From Verif Require Import Ex_FFT.
Lemma c44_refuted : exists sg A (x y : store KDense Qc), declared sg A /\ nonnull sg = length sg /\ valid A x /\ valid A y /\
  ok2 mv_eqb (mv_mul A x y) (mv_one A) = true /\ ok2 mv_eqb (mv_mul A y x) (mv_one A) = true /\
  (X <- mv_fft (F := Qc) A (x : arr Qc) ;; fr_inv X) = Ok None.
Proof.
  exists [P1; P1; P1], (alg [P1; P1; P1]), (mkArr 3 [qc 0 1; qc 0 1; qc 1 1; qc 0 1; qc 0 1; qc 0 1; qc 0 1; qc 0 1]), (mkArr 3 [qc 0 1; qc 0 1; qc 1 1; qc 0 1; qc 0 1; qc 0 1; qc 0 1; qc 0 1]).
  split; [dcl|]. split; [reflexivity|]. split; [vld|]. split; [vld|]. split; [vm_compute; reflexivity|]. split; vm_compute; reflexivity.
Qed.
