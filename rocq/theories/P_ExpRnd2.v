(** Rounding errors of exp: against the exponential series, and in double precision. *)
From Verif Require Export P_ExpRnd Ex_FTotal.
From Coq Require Import QArith Qround Lqa Lia.
Local Open Scope Qc_scope.

#[local] Existing Instance id_from.

Section Gen.
Context {F : Type} {RF : RingOps F} {DF : DivOps F} {V : RoundOps F} {RL : RoundLaws F} {W : NumLaws F} {G : RangeOps F} {GL : RangeLaws F} {m : Mode} {H : HashOrder}.
Context {EO : ExpOps F} {FF : FromF F F} {NF : NormF F F}.
Variable rnd : Qc -> Qc.
Hypothesis Hr : forall a, a <= rnd a.
Variable sg : list tok.
Variable A : algebra.
Hypothesis D : declared sg A.
Variable k : kind.
Variable x : store k F.
Hypothesis HF : forall a : F, from_f a = a.
Local Notation d := (a_dim A).
Local Notation ecoef := (exp_coeff (F := F)).

(** The reciprocal of the scale. *)
Lemma inv_near c s : okay c -> (0 < s)%nat -> val c = natq s -> 1 < big -> natq s * eta <= ulp -> (1 + 1) * ulp <= 1 ->
  okay (rdiv r1 c) /\ 0 <= val (rdiv r1 c) /\ 1 - (1 + 1) * ulp <= natq s * val (rdiv r1 c) /\ natq s * val (rdiv r1 c) <= 1 + (1 + 1) * ulp.
Proof.
  intros Kc Hs Ec Hb He Hu. assert (Hz : natq s <> 0) by (destruct s; [lia|apply natq_nz]).
  assert (H1 : 1 <= natq s) by (destruct s as [|t]; [lia|]; rewrite natq_S; pose proof (natq_pos t); qlra).
  assert (Hi : 0 <= / natq s) by (apply qinv_pos; apply Qclt_le_trans with 1; [reflexivity|exact H1]).
  assert (Hle : / natq s <= 1). { replace 1 with (natq s * / natq s) by (field; exact Hz). replace (/ natq s) with (1 * / natq s) at 1 by ring. apply Qcmult_le_compat_r; auto. }
  assert (Kd : okay (rdiv r1 c)).
  { apply ra_div; [apply ra_1|exact Kc|rewrite Ec; exact Hz|]. rewrite (proj1 ro_1), Ec. replace (1 / natq s) with (/ natq s) by (unfold Qcdiv; ring). rewrite Qcabs_pos by exact Hi. eapply Qcle_lt_trans; [exact Hle|exact Hb]. }
  destruct (ro_div r1 c (ra_fin _ Kc) ltac:(rewrite Ec; exact Hz) (ra_fin _ Kd)) as (_ & R). unfold rounds in R. rewrite (proj1 ro_1), Ec in R. replace (1 / natq s) with (/ natq s) in R by (unfold Qcdiv; ring).
  rewrite (Qcabs_pos (/ natq s)) in R by exact Hi. set (w := val (rdiv r1 c)) in *. apply Qcabs_Qcle_condition in R. destruct R as [R1 R2].
  assert (B1 : natq s * (/ natq s - (ulp * / natq s + eta)) <= natq s * w) by (apply qmul_le; [apply natq_pos|]; clear - R1; set (p := ulp * / natq s) in *; set (q := / natq s) in *; clearbody p q; qlra).
  assert (B2 : natq s * w <= natq s * (/ natq s + (ulp * / natq s + eta))) by (apply qmul_le; [apply natq_pos|]; clear - R2; set (p := ulp * / natq s) in *; set (q := / natq s) in *; clearbody p q; qlra).
  replace (natq s * (/ natq s - (ulp * / natq s + eta))) with (1 - ulp - natq s * eta) in B1 by (field; exact Hz). replace (natq s * (/ natq s + (ulp * / natq s + eta))) with (1 + ulp + natq s * eta) in B2 by (field; exact Hz).
  assert (L1 : 1 - (1 + 1) * ulp <= natq s * w) by (clear - B1 He; set (p := natq s * eta) in *; set (q := natq s * w) in *; clearbody p q; qlra).
  split; [exact Kd|]. split; [|split; [exact L1|clear - B2 He; set (p := natq s * eta) in *; set (q := natq s * w) in *; clearbody p q; qlra]].
  replace w with (natq s * w * / natq s) by (field; exact Hz). apply qmul_pos; auto. clear - L1 Hu. set (q := natq s * w) in *. clearbody q. qlra.
Qed.

Theorem c79 (n : nat) (c : F) (r U lo hi : Qc) fuel : valid A x -> all_okay A x -> norm1 d (fun i => val (rd x i)) <= r ->
  (forall j, (j < n)%nat -> e_gt_eps (ecoef j) = true) -> e_gt_eps (ecoef n) = false ->
  (forall j, (j <= n)%nat -> okay (ecoef j) /\ lo ^ j <= val (ecoef j) * qfact j /\ val (ecoef j) * qfact j <= hi ^ j) ->
  0 <= lo -> lo <= 1 -> 1 <= hi ->
  mv_exp_scale A x = Ok c -> okay c -> (0 < e_usize c)%nat -> val c = natq (e_usize c) -> 1 < big -> natq (e_usize c) * eta <= ulp -> (1 + 1) * ulp <= 1 ->
  (n < fuel)%nat ->
  top_exp rnd d r (val (rdiv r1 c)) (map (fun j => val (ecoef j)) (seq 1 n)) (e_usize c) = Some U ->
  exists z : store k F, mv_exp A fuel x = Ok z /\ valid A z /\ all_okay A z /\
  forall K, (n * e_usize c <= K)%nat ->
    norm1 d (fun i => val (rd z i) - exp_sum (sq sg) d (fun j => val (rd x j)) K i) <=
    U + exp_num K (hi * (1 + (1 + 1) * ulp) * r) - (1 + 1) * exp_num n (lo * (1 - (1 + 1) * ulp) * r / natq (e_usize c)) ^ e_usize c.
Proof.
  intros Hx Kx Hnx Hgo Hst Hc Hlo Hlo1 Hhi Esc Kc Hs Ec Hb He Hu Hf Et. set (s := e_usize c) in *.
  destruct (inv_near c s Kc Hs Ec Hb He Hu) as (Ki & Pi & L1 & L2). set (v := val (rdiv r1 c)) in *.
  assert (Pc : forall j, (j <= n)%nat -> 0 <= val (ecoef j)).
  { intros j Hj. destruct (Hc j Hj) as (_ & L & _). replace (val (ecoef j)) with (val (ecoef j) * qfact j * / qfact j) by (field; apply qfact_nz). apply qmul_pos; [eapply Qcle_trans; [|exact L]; apply qpow_pos, Hlo|apply qinv_pos, qfact_pos]. }
  destruct (maj_exp rnd Hr sg A D k HF n Hgo Hst (fun j Hj => proj1 (Hc j Hj)) Pc x fuel c r U Hx Kx Hnx Esc Ki Pi Hs Hf Et) as (z & Ez & Hz & Kz & Hd & Hfn). fold s v in Hd, Hfn.
  exists z. split; [exact Ez|]. split; [exact Hz|]. split; [exact Kz|]. intros K HK.
  set (lo' := lo * (1 - (1 + 1) * ulp)). set (hi' := hi * (1 + (1 + 1) * ulp)). pose proof ro_u as Hu0.
  assert (P1 : 0 <= 1 - (1 + 1) * ulp) by (clear - Hu; qlra). assert (P2 : 1 <= 1 + (1 + 1) * ulp) by (clear - Hu0; qlra).
  assert (Hlo' : 0 <= lo' /\ lo' <= 1). { split; [apply qmul_pos; auto|]. replace 1 with (1 * 1) by ring. apply qmul_le2; auto. clear - Hu0. qlra. }
  assert (Hhi' : 1 <= hi'). { replace 1 with (1 * 1) by ring. apply qmul_le2; auto; discriminate. }
  assert (Hr0 : 0 <= r) by (eapply Qcle_trans; [apply norm1_pos|exact Hnx]).
  assert (Hcs : forall j, (j <= n)%nat -> ecf lo' j <= cf (vcs n) j * (natq s * v) ^ j /\ cf (vcs n) j * (natq s * v) ^ j <= ecf hi' j).
  { intros j Hj. assert (Ej : cf (vcs n) j = val (ecoef j)). { unfold cf, vcs. rewrite (nth_indep _ 0 (val (ecoef 0))) by (rewrite map_length, seq_length; lia). rewrite (map_nth (fun j => val (ecoef j))), seq_nth by lia. reflexivity. }
    rewrite Ej. destruct (Hc j Hj) as (_ & C1 & C2). assert (Q : 0 <= / qfact j) by apply qinv_pos, qfact_pos.
    assert (P3 : 0 <= natq s * v) by (apply qmul_pos; [apply natq_pos|exact Pi]).
    unfold ecf, lo', hi', Qcdiv. rewrite !pow_mul. replace (val (ecoef j) * (natq s ^ j * v ^ j)) with (val (ecoef j) * qfact j * (natq s * v) ^ j * / qfact j) by (rewrite pow_mul; field; apply qfact_nz).
    split; apply Qcmult_le_compat_r; auto; apply qmul_le2; auto.
    - apply qpow_pos, Hlo.
    - apply qpow_pos, P1.
    - apply P_ExpLim2.qpow_mono; auto.
    - apply qmul_pos; [apply Pc; exact Hj|]. apply Qclt_le_weak, qfact_pos.
    - apply qpow_pos, P3.
    - apply P_ExpLim2.qpow_mono; auto. }
  pose proof (poly_near sg A D (vcs n) n s v lo' hi' Hs (vcs_len n) Hlo' Hhi' Hcs (fun j => val (rd x j)) K r HK Hnx) as B.
  pose proof (low_le (vcs n) n s v lo' hi' Hs (vcs_len n) Hlo' Hhi' Hcs r Hr0) as LL.
  eapply Qcle_trans; [apply (norm1_tri d _ (fpow A (evp A (vcs n) (fun i => val (rd x i) * v)) s))|]. eapply Qcle_trans; [apply Qcplus_le_compat; [exact Hd|exact B]|].
  clear - LL. set (p := exp_num n _ ^ s) in *. set (q := evq _ _ ^ s) in *. set (w := exp_num K _). clearbody p q w. qlra.
Qed.
End Gen.

(** e^(a + b) = e^a e^b for partial sums, as an inequality. *)
Fixpoint sumn (K : nat) (u : nat -> Qc) : Qc := match K with O => u O | S k => u O + sumn k (fun j => u (S j)) end.
Lemma sumn_r K : forall u, sumn (S K) u = sumn K u + u (S K).
Proof. induction K as [|K IH]; intros u; [reflexivity|]. change (sumn (S (S K)) u) with (u O + sumn (S K) (fun j => u (S j))). rewrite IH. cbn [sumn]. ring. Qed.
Lemma sumn_pos K : forall u, (forall j, 0 <= u j) -> 0 <= sumn K u.
Proof. induction K as [|K IH]; intros u Hu; cbn [sumn]; auto. replace 0 with (0 + 0) by ring. apply Qcplus_le_compat; auto. Qed.
Lemma sumn_conv K : forall u w, (forall j, 0 <= u j) -> (forall j, 0 <= w j) -> sumn K (conv u w) <= sumn K u * sumn K w.
Proof.
  induction K as [|K IH]; intros u w Hu Hw; [apply Qcle_refl|]. set (u' := fun j => u (S j)).
  assert (E : sumn (S K) (conv u w) = u O * sumn (S K) w + sumn K (conv u' w)).
  { clear. assert (G : forall L (f g : nat -> Qc), sumn L (fun j => f j + g j) = sumn L f + sumn L g) by (induction L as [|L IH]; intros f g; cbn [sumn]; [reflexivity|]; rewrite (IH (fun j => f (S j)) (fun j => g (S j))); ring).
    assert (G2 : forall L a (f : nat -> Qc), sumn L (fun j => a * f j) = a * sumn L f) by (induction L as [|L IH]; intros a f; cbn [sumn]; [reflexivity|]; rewrite (IH a (fun j => f (S j))); ring).
    change (sumn (S K) (conv u w)) with (u O * w O + sumn K (fun j => u O * w (S j) + conv u' w j)). rewrite G, G2. cbn [sumn]. ring. }
  rewrite E. change (sumn (S K) u) with (u O + sumn K u'). replace ((u O + sumn K u') * sumn (S K) w) with (u O * sumn (S K) w + sumn K u' * sumn (S K) w) by ring. apply Qcplus_le_compat; [apply Qcle_refl|].
  eapply Qcle_trans; [apply IH; [intros; apply Hu|exact Hw]|]. apply qmul_le; [apply sumn_pos; intros; apply Hu|]. rewrite sumn_r. pose proof (Hw (S K)). qlra.
Qed.
Lemma exp_num_sumn K r : exp_num K r = sumn K (ecf r).
Proof. induction K as [|K IH]; [unfold ecf; cbn; field; discriminate|]. rewrite exp_num_ecf, IH, sumn_r. reflexivity. Qed.
Lemma exp_num_add K a b : 0 <= a -> 0 <= b -> exp_num K (a + b) <= exp_num K a * exp_num K b.
Proof.
  intros Ha Hb. rewrite !exp_num_sumn. eapply Qcle_trans; [|apply sumn_conv; intros j; apply ecf_pos; auto].
  apply qeq_le. assert (G : forall L (f g : nat -> Qc), (forall j, f j = g j) -> sumn L f = sumn L g) by (induction L as [|L IH]; intros f g Hfg; cbn [sumn]; [apply Hfg|]; rewrite (Hfg O); f_equal; apply IH; intros; apply Hfg).
  apply G. intros j. symmetry. apply ecf_conv.
Qed.

Lemma num_close n K (U t a h l hb B eps r : Qc) : 0 <= r -> 0 <= h -> 0 <= l -> 0 <= t -> h <= r + t -> r - t <= l -> r + t <= hb -> exp_num K hb <= B ->
  exp_num n t <= 1 + a -> 0 <= a -> a <= 1 -> (n <= K)%nat ->
  U + (exp_num n r * (1 + a) + ecf hb (S n) * B) - (1 + 1) * (exp_num n r * (1 - a)) <= eps ->
  U + exp_num K h - (1 + 1) * exp_num n l ^ 1 <= eps.
Proof.
  intros Hr Hh Hl Ht X2 X3 X6 HB X1 Ha0 Ha1 HK Hf. set (E := exp_num n r) in *. assert (E1 : 1 <= E) by (apply exp_num_pos; exact Hr).
  assert (Hhb : h <= hb) by (eapply Qcle_trans; [exact X2|exact X6]).
  assert (T1 : exp_num K h <= E * (1 + a) + ecf hb (S n) * B).
  { pose proof (tail_le h n K Hh HK) as T. assert (T2 : ecf h (S n) * exp_num K h <= ecf hb (S n) * B).
    { apply qmul_le2; [apply ecf_pos; exact Hh|apply (Qcle_trans _ 1); [discriminate|apply exp_num_pos; exact Hh]|apply ecf_mono; [exact Hh|exact Hhb]|].
      eapply Qcle_trans; [apply exp_num_mono; [exact Hh|exact Hhb]|exact HB]. }
    assert (T3 : exp_num n h <= E * (1 + a)).
    { eapply Qcle_trans; [apply exp_num_mono; [exact Hh|exact X2]|]. eapply Qcle_trans; [apply exp_num_add; [exact Hr|exact Ht]|]. apply qmul_le; [apply (Qcle_trans _ 1); [discriminate|exact E1]|exact X1]. }
    revert T T2 T3. set (p := exp_num K h). set (q := exp_num n h). set (w := ecf h (S n) * p). set (y := ecf _ _ * _). set (v := E * _). clearbody p q w y v. intros T T2 T3. clear - T T2 T3. qlra. }
  assert (T2 : E * (1 - a) <= exp_num n l).
  { assert (T : E <= exp_num n l * (1 + a)).
    { apply (Qcle_trans _ (exp_num n (l + t))).
      - apply exp_num_mono; [exact Hr|]. clear - X3. qlra.
      - eapply Qcle_trans; [apply exp_num_add; auto|]. apply qmul_le; [apply (Qcle_trans _ 1); [discriminate|apply exp_num_pos; exact Hl]|exact X1]. }
    set (q := exp_num n l) in *. assert (Hq : 0 <= q) by (apply (Qcle_trans _ 1); [discriminate|apply exp_num_pos; exact Hl]). clearbody q.
    apply (Qcle_trans _ (q * (1 + a) * (1 - a))); [apply Qcmult_le_compat_r; [exact T|clear - Ha1; qlra]|]. replace (q * (1 + a) * (1 - a)) with (q - q * (a * a)) by ring.
    assert (W : 0 <= q * (a * a)) by (apply qmul_pos; auto; apply qmul_pos; auto). set (w := q * (a * a)) in *. clearbody w. clear - W. qlra. }
  revert T1 T2 Hf. set (p := exp_num K h). set (q := exp_num n l). set (v := E * (1 + _)). set (v' := E * (1 - _)). set (y := ecf _ _ * _). clearbody p q v v' y. intros T1 T2 Hf. replace (q ^ 1) with q by (cbn; ring). clear - T1 T2 Hf. qlra.
Qed.

(** Double precision. *)
Section F64.
#[local] Existing Instance f64_rounds.
#[local] Existing Instance f64_range.
#[local] Instance V64 : RoundOps flt := flt_round 53 1024.
#[local] Instance G64 : RangeOps flt := flt_range 53 1024.
#[local] Instance D64 : DivOps flt := flt_div 53 1024.
#[local] Existing Instance F64.
Definition u64 : Qc := pow2q (- 53).

Definition fok (a : flt) : bool := match a with FZ => true | FFin _ m e => SpecFloat.bounded 53 1024 m e | _ => false end.
Lemma fok_ok a : fok a = true -> okay a.
Proof. destruct a; cbn; auto; discriminate. Qed.
Definition qle (a b : Qc) : bool := match Qccompare a b with Gt => false | _ => true end.
Lemma qle_le a b : qle a b = true -> a <= b.
Proof. unfold qle. intros E. destruct (Qccompare a b) eqn:H; try discriminate; [apply Qceq_alt in H; rewrite H; apply Qcle_refl|apply Qclt_le_weak, Qclt_alt; exact H]. Qed.
Definition coef_ok (j : nat) : bool := let c := exp_coeff (F := flt) j in
  (fok c && qle ((1 - u64) ^ j) (val c * qfact j) && qle (val c * qfact j) ((1 + u64) ^ j))%bool.
Lemma coefs_ok : forallb coef_ok (seq 0 19) = true.
Proof. vm_compute. reflexivity. Qed.
Lemma coefs_go : forallb (fun j => f64_gt_eps (exp_coeff (F := flt) j)) (seq 0 18) = true.
Proof. vm_compute. reflexivity. Qed.

Context {m : Mode} {H : HashOrder} {EO : ExpOps flt} {FF : FromF flt flt} {NF : NormF flt flt}.
Hypothesis HE : forall c, e_gt_eps c = f64_gt_eps c.
Hypothesis HF : forall a : flt, from_f a = a.
Theorem c79_f64 (rnd : Qc -> Qc) sg A (k : kind) (x : store k flt) (c : flt) (r U : Qc) fuel : (forall a, a <= rnd a) -> declared sg A ->
  valid A x -> all_okay A x -> norm1 (a_dim A) (fun i => val (rd x i)) <= r ->
  mv_exp_scale A x = Ok c -> okay c -> (0 < e_usize c)%nat -> val c = natq (e_usize c) -> natq (e_usize c) <= pow2q 64 -> (18 < fuel)%nat ->
  top_exp rnd (a_dim A) r (val (rdiv r1 c)) (map (fun j => val (exp_coeff (F := flt) j)) (seq 1 18)) (e_usize c) = Some U ->
  exists z : store k flt, mv_exp A fuel x = Ok z /\ valid A z /\ all_okay A z /\
  forall K, (18 * e_usize c <= K)%nat ->
    norm1 (a_dim A) (fun i => val (rd z i) - exp_sum (sq sg) (a_dim A) (fun j => val (rd x j)) K i) <=
    U + exp_num K ((1 + ulp) * (1 + (1 + 1) * ulp) * r) - (1 + 1) * exp_num 18 ((1 - ulp) * (1 - (1 + 1) * ulp) * r / natq (e_usize c)) ^ e_usize c.
Proof.
  intros Hr D Hx Kx Hn Es Kc Hs Ec Hc Hf Et. apply (c79 rnd Hr sg A D k x HF 18 c r U (1 - ulp) (1 + ulp) fuel); auto.
  - intros j Hj. rewrite HE. pose proof coefs_go as Q. rewrite forallb_forall in Q. apply Q. apply in_seq. lia.
  - rewrite HE. exact eps_18_f64.
  - intros j Hj. pose proof coefs_ok as Q. rewrite forallb_forall in Q. specialize (Q j ltac:(apply in_seq; lia)). unfold coef_ok in Q.
    apply andb_prop in Q. destruct Q as [Q Q3]. apply andb_prop in Q. destruct Q as [Q1 Q2]. split; [apply fok_ok, Q1|]. split; apply qle_le; assumption.
  - apply qle_le. vm_compute. reflexivity.
  - apply qle_le. vm_compute. reflexivity.
  - apply qle_le. vm_compute. reflexivity.
  - vm_compute. reflexivity.
  - apply (Qcle_trans _ (pow2q 64 * eta)); [apply Qcmult_le_compat_r; [exact Hc|apply ro_eta]|]. apply qle_le. vm_compute. reflexivity.
  - apply qle_le. vm_compute. reflexivity.
Qed.

(** Numbers rounded up to multiples of 2^-80. *)
Definition grid (a : Qc) : Qc := Q2Qc (Qmake (Qceiling (this a * (2 ^ 80 # 1))) (2 ^ 80)).
Lemma grid_le a : a <= grid a.
Proof.
  unfold grid, Qcle, Q2Qc. cbn [this]. rewrite Qred_correct. set (z := Qceiling _). pose proof (Qle_ceiling (this a * (2 ^ 80 # 1))) as B. fold z in B.
  apply (Qmult_le_r _ _ (2 ^ 80 # 1)); [reflexivity|]. eapply Qle_trans; [exact B|]. unfold Qle. cbn [Qnum Qden Qmult inject_Z]. lia.
Qed.
Definition u3 : Qc := Q2Qc (3001 # 1000) * u64.
Definition tiny (d : nat) : bool :=
  match top_exp grid d 1 (val (rdiv (r1 : flt) r1)) (map (fun j => val (exp_coeff (F := flt) j)) (seq 1 18)) 1 with
  | Some U => let E := exp_num 18 1 in
    qle (U + (E * (1 + Q2Qc (31 # 10) * u64) + ecf (Q2Qc (11 # 10)) 19 * Q2Qc (3 # 1) ^ 2) - (1 + 1) * (E * (1 - Q2Qc (31 # 10) * u64))) (Q2Qc (2 # 10 ^ 14))
  | None => false
  end.
Lemma tiny_ok d : (d <= 5)%nat -> tiny d = true.
Proof. intros Hd. do 6 (destruct d as [|d]; [vm_compute; reflexivity|]). lia. Qed.
Lemma u3_exp : exp_num 18 u3 <= 1 + Q2Qc (31 # 10) * u64 /\ (1 + u64) * (1 + (1 + 1) * u64) * 1 <= 1 + u3 /\ 1 - u3 <= (1 - u64) * (1 - (1 + 1) * u64) * 1 / natq 1 /\ 0 <= u3 /\ u3 <= 1 /\ 1 + u3 <= Q2Qc (11 # 10).
Proof. repeat split; apply qle_le; vm_compute; reflexivity. Qed.

Theorem c79_small sg A (k : kind) (x : store k flt) fuel : declared sg A -> (length sg <= 5)%nat ->
  valid A x -> all_okay A x -> norm1 (a_dim A) (fun i => val (rd x i)) <= 1 ->
  mv_exp_scale A x = Ok r1 -> e_usize (r1 : flt) = 1%nat -> (18 < fuel)%nat ->
  exists z : store k flt, mv_exp A fuel x = Ok z /\ valid A z /\ all_okay A z /\
  forall K, (18 <= K)%nat ->
    norm1 (a_dim A) (fun i => val (rd z i) - exp_sum (sq sg) (a_dim A) (fun j => val (rd x j)) K i) <= Q2Qc (2 # 10 ^ 14).
Proof.
  intros D Hl Hx Kx Hn Es Eu Hf. assert (Hd : (a_dim A <= 5)%nat) by (rewrite (declared_dim _ _ D); exact Hl).
  pose proof (tiny_ok (a_dim A) Hd) as Ht. unfold tiny in Ht. destruct (top_exp grid (a_dim A) 1 _ _ 1) as [U|] eqn:Et; [|discriminate]. apply qle_le in Ht.
  destruct (c79_f64 grid sg A k x r1 1 U fuel grid_le D Hx Kx Hn Es) as (z & Ez & Hz & Kz & B); auto.
  - apply ra_1.
  - rewrite Eu. lia.
  - rewrite Eu. apply Qc_is_canon. reflexivity.
  - rewrite Eu. apply qle_le. vm_compute. reflexivity.
  - rewrite Eu. exact Et.
  - exists z. split; [exact Ez|]. split; [exact Hz|]. split; [exact Kz|]. intros K HK. specialize (B K). rewrite Eu in B. specialize (B ltac:(lia)). eapply Qcle_trans; [exact B|]. eapply Qcle_trans; [|exact Ht].
    destruct u3_exp as (X1 & X2 & X3 & X4 & X5 & X6).
    refine (num_close 18 K U u3 (Q2Qc (31 # 10) * u64) _ _ (Q2Qc (11 # 10)) (Q2Qc (3 # 1) ^ 2) _ 1 _ _ _ X4 X2 _ X6 _ X1 _ _ HK _).
    + discriminate.
    + apply qle_le. vm_compute. reflexivity.
    + apply qle_le. vm_compute. reflexivity.
    + exact X3.
    + apply exp_num_3; discriminate.
    + apply qle_le. vm_compute. reflexivity.
    + apply qle_le. vm_compute. reflexivity.
    + apply Qcle_refl.
Qed.
End F64.
