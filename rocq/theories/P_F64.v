(** The laws that hold of IEEE arithmetic. *)
From Verif Require Export M_Float M_CliFFT.
From Coq Require Import Floats.SpecFloat.

Section Laws.
Variables prec emax : Z.
Local Notation rnd := (binary_round prec emax).
Local Notation nrm := (binary_normalize prec emax).

Lemma round_neg sx m e : SFopp (rnd sx m e) = rnd (negb sx) m e.
Proof.
  unfold binary_round. destruct (shl_align _ _ _) as [mz ez]. unfold binary_round_aux.
  destruct (shr_fexp _ _ _ _ _) as [m1 e1]. destruct (shr_fexp _ _ _ _ _) as [m2 e2].
  destruct (shr_m m2); try reflexivity. destruct (Zle_bool _ _); reflexivity.
Qed.
Lemma normalize_neg z e s : of_sf (SFopp (nrm z e s)) = of_sf (nrm (- z) e s).
Proof. destruct z; cbn [Z.opp binary_normalize]; rewrite ?round_neg; reflexivity. Qed.
Lemma round_neg' sx m e : of_sf (SFopp (to_sf (of_sf (rnd sx m e)))) = of_sf (rnd (negb sx) m e).
Proof. rewrite <- round_neg. destruct (rnd sx m e); reflexivity. Qed.
Lemma opp_of x : of_sf (SFopp (to_sf (of_sf x))) = of_sf (SFopp x).
Proof. destruct x; reflexivity. Qed.
Lemma cond_opp_negb s z : cond_Zopp (negb s) z = (- cond_Zopp s z)%Z.
Proof. destruct s; cbn [cond_Zopp negb]; lia. Qed.

Lemma flt_laws : NumLaws flt (O := flt_ops prec emax).
Proof.
  constructor; cbn [radd rsub rmul rneg r0 r1 ris0 reqb flt_ops].
  - intros [| [] | |sx mx ex] [| [] | |sy my ey]; try reflexivity. cbn [to_sf SFadd].
    rewrite Z.min_comm, Z.add_comm. reflexivity.
  - intros [| [] | |sx mx ex]; reflexivity.
  - intros [| [] | |sx mx ex] [| [] | |sy my ey]; try reflexivity. cbn [to_sf SFadd SFsub SFopp of_sf].
    rewrite cond_opp_negb, Z.add_opp_r. reflexivity.
  - intros [| [] | |[] mx ex]; reflexivity.
  - reflexivity.
  - intros [| [] | |sx mx ex] [| [] | |sy my ey]; try reflexivity. cbn [to_sf SFadd SFopp of_sf].
    rewrite opp_of, normalize_neg, !cond_opp_negb. f_equal. f_equal. lia.
  - intros [| [] | |sx mx ex]; split; congruence.
  - reflexivity.
  - intros [| [] | |[] mx ex] [| [] | |[] my ey]; try reflexivity; unfold SFeqb; cbn [to_sf SFcompare];
    rewrite (Z.compare_antisym ex ey); destruct (ex ?= ey)%Z; cbn [CompOpp]; try reflexivity;
    change (Pos.compare_cont Eq mx my) with (Pos.compare mx my); change (Pos.compare_cont Eq my mx) with (Pos.compare my mx);
    rewrite (Pos.compare_antisym mx my); destruct (mx ?= my)%positive; reflexivity.
Qed.
End Laws.

(** Complex numbers over rounded numbers. *)
Lemma cplx_num {F} {RF : RingOps F} (W : NumLaws F) : NumLaws (cplx F).
Proof.
  constructor; cbn [radd rsub rneg r0 ris0 reqb CplxOps].
  - intros. f_equal; apply n_add_comm.
  - intros [a b]. cbn. f_equal; apply n_add_0_l.
  - intros. cbn. f_equal; apply n_sub_def.
  - intros [a b]. cbn. f_equal; apply n_neg_neg.
  - f_equal; apply n_neg_0.
  - intros. cbn. f_equal; apply n_neg_add.
  - intros [a b]. cbn. rewrite andb_true_iff, !n_is0_spec. split; [intros [-> ->]; reflexivity|intros E; injection E; auto].
  - cbn. rewrite n_reqb_0. reflexivity.
  - intros. rewrite n_reqb_sym. f_equal. apply n_reqb_sym.
Qed.
