(** Subtraction in floating point: rounding and range. *)
From Coq Require Import QArith Qcanon.
From Verif Require Import P_F64 P_Round2 P_Range2.
Local Open Scope Qc_scope.

Section Sub.
Context {F} {RF : RingOps F} {DF : DivOps F} {V : RoundOps F} {RL : RoundLaws F} {W : NumLaws F} {G : RangeOps F} {GL : RangeLaws F}.

Lemma sub_rounds (a b : F) : finite (rsub a b) = true -> finite a = true /\ finite b = true /\ rounds (val (rsub a b)) (val a - val b).
Proof.
  rewrite n_sub_def. intros H. destruct (ro_add a (rneg b) H) as (Ha & Hb & R). destruct (ro_neg b) as [Ev Ef].
  rewrite Ef in Hb. rewrite Ev in R. split; [exact Ha|]. split; [exact Hb|]. exact R.
Qed.
Lemma sub_okay (a b : F) : okay a -> okay b -> Qcabs (val a - val b) < big -> okay (rsub a b).
Proof.
  intros Ha Hb Hl. rewrite n_sub_def. apply ra_add; [exact Ha|exact (ra_neg b Hb)|].
  destruct (ro_neg b) as [Ev _]. rewrite Ev. exact Hl.
Qed.
End Sub.
