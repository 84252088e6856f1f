(** Scalars acting on representations. *)
From Verif Require Export P_Cplx M_FFTRepr.
Local Open Scope nat_scope.

Section Map.
Context {T : Type}.
Lemma a3_map_ext (f g : T -> T) a : (forall c, f c = g c) -> a3_map f a = a3_map g a.
Proof. intros E. unfold a3_map. f_equal. apply map_ext. intros mt. unfold m_map. f_equal. apply map_ext. exact E. Qed.
Lemma a3_map_id (f g : T -> T) a : (forall c, f (g c) = c) -> a3_map f (a3_map g a) = a.
Proof.
  intros E. destruct a as [r c l]. unfold a3_map. cbn [t_nr t_nc t_mats]. f_equal. rewrite map_map. rewrite <- (map_id l) at 2. apply map_ext. intros [a b ms]. unfold m_map. cbn [m_nr m_nc m_data]. f_equal.
  rewrite map_map. rewrite <- (map_id ms) at 2. apply map_ext. exact E.
Qed.
End Map.

Section Scal.
Context {F : Type} {RF : RingOps F} {LF : RingLaws F} {CF : CommLaws F} {DV : DivOps F} {FL : FieldLaws F} {FRl : FormallyReal F}.
Lemma t_scalars (a : fftrepr F) (t : F) (z : cplx F) :
  fr_scale_r a t = fr_scale a (mkC t r0) /\
  (t <> r0 -> fr_scale_r (fr_div_r a t) t = a) /\
  (z <> r0 -> fr_scale (fr_div a z) z = a).
Proof.
  split; [|split].
  - apply a3_map_ext. intros c. unfold c_mulr. apply cplx_ext; cbn; rewrite !mul_0_r; abel.
  - intros Ht. apply a3_map_id. intros [u v]. unfold c_mulr, c_divr. cbn [c_re c_im]. f_equal; apply div_mul; auto.
  - intros Hz. apply a3_map_id. intros c. apply div_mul; auto.
Qed.
End Scal.
