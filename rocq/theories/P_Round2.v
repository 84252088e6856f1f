(** IEEE arithmetic satisfies the standard model. *)
From Verif Require Export Spec_Round P_Round P_F64.
From Coq Require Import QArith Qabs ZArith Lia Lqa Floats.SpecFloat.

Section Fmt.
Variables prec emax : Z.
Hypothesis Hp : (0 < prec)%Z.
Local Open Scope Qc_scope.

Lemma flt_val_this x : (this (flt_val x) == sq_val (to_sf x))%Q.
Proof.
  destruct x as [| | |s m e]; try reflexivity. cbn [flt_val to_sf sq_val]. unfold Qcmult, pow2q. cbn [this Q2Qc]. rewrite !Qred_correct.
  unfold bp. destruct s; reflexivity.
Qed.
Lemma to_of_val r : (sq_val (to_sf (of_sf r)) == sq_val r)%Q.
Proof. destruct r; reflexivity. Qed.
Lemma fin_of r : flt_finite (of_sf r) = sfin r.
Proof. destruct r; reflexivity. Qed.
Lemma fin_to x : flt_finite x = sfin (to_sf x).
Proof. destruct x; reflexivity. Qed.

Lemma rounds_Q (a b : Qc) (qa qb : Q) : (this a == qa)%Q -> (this b == qb)%Q -> (Qabs (qa - qb) <= uu prec * Qabs qb + hh prec emax)%Q ->
  @rounds flt (flt_round prec emax) a b.
Proof.
  intros Ea Eb H. unfold rounds, Qcle. cbn [ulp eta flt_round]. unfold Qcplus, Qcmult, Qcminus, Qcopp, Qcplus, pow2q, Q2Qc, Qcabs. cbn [this].
  rewrite !Qred_correct. rewrite Ea, Eb. exact H.
Qed.
Lemma this_inv_ne (b : Qc) : (this (/ b) == / this b)%Q.
Proof. unfold Qcinv, Q2Qc. cbn [this]. apply Qred_correct. Qed.

Lemma flt_round_laws : flt_val (of_sf (binary_round prec emax false 1 0)) = 1 ->
  let O := flt_ops prec emax in
  flt_val (radd (RingOps := O) r1 r1) = 1 + 1 ->
  flt_val (rmul (RingOps := O) (radd r1 r1) (radd r1 r1)) = (1 + 1) * (1 + 1) ->
  flt_finite (rmul (RingOps := O) (radd r1 r1) (radd r1 r1)) = true ->
  @RoundLaws flt (flt_ops prec emax) (flt_div prec emax) (flt_round prec emax).
Proof.
  intros H1 O H2 H4 H4'. constructor; cbn [val finite flt_round].
  - apply Qlt_le_weak. cbn [ulp flt_round]. unfold pow2q, Q2Qc. cbn [this]. rewrite !Qred_correct. apply (bp_pos (- prec)).
  - apply Qlt_le_weak. cbn [eta flt_round]. unfold pow2q, Q2Qc. cbn [this]. rewrite !Qred_correct. apply (bp_pos _).
  - split; reflexivity.
  - split; [exact H1|]. split; assumption.
  - exact H4'.
  - intros a. destruct a as [| | |s m e]; cbn [rneg flt_ops to_sf SFopp of_sf flt_val flt_finite]; split; try reflexivity.
    apply Qc_is_canon. unfold Qcopp, Qcmult, Q2Qc, pow2q. cbn [this]. rewrite !Qred_correct. destruct s; cbn [negb];
    [change (Z.neg m) with (- Z.pos m)%Z|change (Z.neg m) with (- Z.pos m)%Z]; rewrite inject_Z_opp; ring.
  - intros a b. cbn [radd flt_ops]. rewrite fin_of. intros H. destruct (add_near prec emax Hp _ _ H) as (Ha & Hb & N).
    rewrite !fin_to. split; [exact Ha|]. split; [exact Hb|]. eapply rounds_Q; [| |exact N].
    + rewrite flt_val_this. apply to_of_val.
    + unfold Qcplus, Q2Qc. cbn [this]. rewrite Qred_correct, !flt_val_this. reflexivity.
  - intros a b. cbn [rmul flt_ops]. rewrite fin_of. intros H. destruct (mul_near prec emax Hp _ _ H) as (Ha & Hb & N).
    rewrite !fin_to. split; [exact Ha|]. split; [exact Hb|]. eapply rounds_Q; [| |exact N].
    + rewrite flt_val_this. apply to_of_val.
    + unfold Qcmult, Q2Qc. cbn [this]. rewrite Qred_correct, !flt_val_this. reflexivity.
  - intros a Ha. destruct a; try discriminate Ha; split; reflexivity.
  - intros a b Hb Hb0. cbn [rdiv flt_div]. rewrite fin_of. intros H.
    assert (Ha : flt_finite a = true).
    { destruct a as [| | |s m e], b as [| | |s' m' e']; try discriminate; reflexivity. }
    split; [exact Ha|]. rewrite fin_to in Ha, Hb. pose proof (div_near prec emax Hp _ _ Ha Hb H) as N.
    eapply rounds_Q; [| |exact N].
    + rewrite flt_val_this. apply to_of_val.
    + unfold Qcdiv, Qcmult, Q2Qc. cbn [this]. rewrite Qred_correct, this_inv_ne, !flt_val_this. reflexivity.
Qed.
End Fmt.

Lemma f64_rounds : @RoundLaws flt F64 (flt_div 53 1024) (flt_round 53 1024).
Proof. apply flt_round_laws; try reflexivity; apply Qc_is_canon; vm_compute; reflexivity. Qed.
Lemma f32_rounds : @RoundLaws flt F32 (flt_div 24 128) (flt_round 24 128).
Proof. apply flt_round_laws; try reflexivity; apply Qc_is_canon; vm_compute; reflexivity. Qed.
