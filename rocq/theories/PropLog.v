(** C40 and C41: the logarithms; C51: log1p near zero; C52: log2 of powers of two. *)
From Coq Require Import ZifyBool ZifyNat Reals Lra.
From Flocq Require Import Core IEEE754.BinarySingleNaN IEEE754.Binary.
From Verif Require Import Base Cxx Spec X86Vec X86 X86Lemmas X86Proofs X86Masks X86Ops X86Shift Fp FpLemmas FpOps FKern FMath FMathProofs FLane FFields FManip FManipLanes LogbProofs
  PropX86 PropFloat PropManip Cvt CvtProofs PropCvt Round RoundProofs RoundSem PropRound FArith PropArith FCvt Hypot HypotProofs HypotSem PropHypot PropIeee LogTab Log LogProofs.
Set Implicit Arguments.

(** *** C40: no table access outside the table, for any bit patterns, on any build *)
Theorem C40_log_tables : forall nn X fm pn he a, xty_ok X -> is_int (xT X) = false -> shaped X a ->
  (exists r, x_log X fm pn he nn a = Ok r /\ shaped X r) /\ (exists r, x_log2 X fm pn he nn a = Ok r /\ shaped X r) /\
  (exists r, x_log10 X fm pn he nn a = Ok r /\ shaped X r) /\ (exists r, x_log1p X fm pn he nn a = Ok r /\ shaped X r).
Proof.
  intros nn X fm pn he a HX HF Ha.
  assert (T : forall K g, @lanewise X K g -> exists r, vz1 X K a = Ok r /\ shaped X r).
  { intros K g H. destruct (@lw_each X HX HF K g a (fun _ _ => True) H Ha (fun _ _ => I)) as (r & A & B & _). eauto. }
  split; [|split; [|split]].
  - exact (T _ _ (k_log_lw HX HF fm pn he nn)).
  - exact (T _ _ (k_log2_lw HX HF fm pn he nn)).
  - exact (T _ _ (k_log10_lw HX HF fm pn he nn)).
  - exact (T _ _ (k_log1p_lw HX HF fm pn he nn)).
Qed.
Print Assumptions C40_log_tables.
(** the tables are read at their last index, and a table one entry shorter would be overrun *)
Example C40_case : lut_get logtab_f64 255 = Ok 0x3fd5d1d758e45217%Z /\ lut_get logtab_f64 256 = UB /\
  (exists x, lidx (X := d2 sse2) 7 x = 127%Z) /\ x_log (f4 sse2) false true true nans0 [[0x3f800000; 0x80000001; 0x7f800000; 0x402df854]]%Z <> UB.
Proof. split; [vm_compute; reflexivity|]. split; [vm_compute; reflexivity|]. split. { exists 0x3fe6800000000000%Z. vm_compute. reflexivity. } vm_compute. discriminate. Qed.

(** *** C41: special values *)
Lemma mval_ge0 f k : (0 <= k)%Z -> (0 <= mval f k)%R.
Proof.
  intros Hk. destruct (Z.eq_dec k 0) as [-> | N]. { rewrite (@mval_0 f). lra. } pose proof (@mval_ge_emin f k ltac:(lia)). pose proof (bpow_ge_0 radix2 (emin f)). lra.
Qed.
Section Sp.
Context {X : xty} (HX : xty_ok X) (HF : is_int (xT X) = false) (fm pn he : bool) (nn : nans).
Local Notation f := (xf X).
Local Notation w := (xw X).
Lemma w_fw : w = fw f. Proof. exact (xw_fw HX HF). Qed.
Lemma one_bits v : word (fw f) v -> isfin f v = true -> val f v = 1%R -> v = fone (fw f).
Proof.
  intros Hv Fv Vv. destruct (@fone_ok f) as (A & B & C). apply (@bits_inj f); auto. { congruence. }
  assert (S : forall x, word (fw f) x -> isfin f x = true -> val f x = 1%R -> fsign (fw f) x = false).
  { intros x Wx Fx Vx. destruct (fsign (fw f) x) eqn:E; auto. pose proof (val_sgnr Wx Fx) as Q. rewrite E in Q. cbn [sgnr] in Q. pose proof (mval_ge0 f (fin_word f Wx)). lra. }
  now rewrite !S.
Qed.
Lemma inf_case s : word (fw f) (infs f s) /\ isnanb f (infs f s) = false /\ feq w (infs f s) 0 = false /\ flt w (infs f s) 0 = s /\
  finok (X := X) (infs f s) = s /\ fnan w (infs f s) = false.
Proof.
  unfold finok. rewrite w_fw. split; [apply word_inf|]. split; [unfold isnanb; now rewrite dec_infs|]. destruct (avx (xc X)), f, s; vm_compute; auto 6.
Qed.
Lemma nan_case v : word (fw f) v -> isnanb f v = true -> forall c, feq w v c = false /\ flt w v c = false /\ finok (X := X) v = false.
Proof.
  intros Hv Nv c. rewrite (isnan_spec Hv), <- w_fw in Nv. unfold finok, feq, flt, neq_oq. rewrite Nv. cbn [negb andb]. destruct (avx (xc X)); auto.
Qed.
Lemma fin_case v : word (fw f) v -> isfin f v = true -> finok (X := X) v = true.
Proof.
  intros Hv Fv. pose proof (fin_fnan Hv Fv) as Nv. rewrite (isfin_spec Hv) in Fv. unfold finok. rewrite w_fw.
  assert (N : fnan (fw f) (finf (fw f)) = false) by (destruct f; reflexivity).
  assert (K : fkey (fw f) (finf (fw f)) = finf (fw f)) by (destruct f; reflexivity).
  assert (Kv : (fkey (fw f) v < finf (fw f))%Z). { unfold fkey. pose proof (fin_word f Hv). assert (0 < finf (fw f))%Z by (destruct f; reflexivity). destruct (fsign _ v); lia. }
  unfold neq_oq, flt, feq. rewrite Nv, N, K. cbn [negb andb]. destruct (avx (xc X)); lia.
Qed.
Lemma inv_nan v : word (fw f) v -> isinf f v \/ isfin f v = true -> isnanb f (fdiv nn f (fsub nn f v v) 0) = true.
Proof.
  intros Hv C. pose proof (@fsub_word nn f v v) as Ws. destruct (@zero_ok f) as (W0 & F0 & V0).
  destruct (sub_ok nn Hv Hv) as (_ & S1 & _ & _ & S2). destruct (div_ok nn Ws W0) as (D1 & _ & D2 & _).
  destruct C as [C|C].
  - apply D1. left. specialize (S2 C C). rewrite eqb_reflx in S2. exact S2.
  - apply D2; [|left; destruct f; reflexivity]. destruct (S1 C C) as [_ E]. rewrite E by lra. destruct (sg f v); [left|left]; reflexivity.
Qed.
Lemma dz_inf v : word (fw f) v -> isfin f v = true -> fdiv nn f (fone w) (fsub nn f v v) = infs f false.
Proof.
  intros Hv C. destruct (sub_ok nn Hv Hv) as (_ & S1 & _). destruct (S1 C C) as [_ E]. rewrite E by lra.
  replace (sg f v && negb (sg f v)) with false by (destruct (sg f v); reflexivity). rewrite w_fw. destruct f; destruct nn; vm_compute; reflexivity.
Qed.
(** what log_excepts guarantees, whatever value [y] the approximation gave *)
Lemma logex_spec (g : Z -> Z) v : word (fw f) v -> let r := logex1 (X := X) pn he nn (if feq w v (fone w) then 0%Z else g v) v in
  (isfin f v = true -> val f v = 1%R -> r = szero f false) /\
  (pn || he = true -> v = infs f false -> r = infs f false) /\ (pn || he = true -> isnanb f v = true -> r = v) /\
  (he = true -> v = infs f true \/ (isfin f v = true /\ (val f v < 0)%R) -> isnanb f r = true) /\
  (he = true -> iszero f v -> r = infs f false).
Proof.
  intros Hv r. destruct (@zero_ok f) as (W0 & F0 & V0). split; [|split; [|split; [|split]]].
  - intros Fv Vv. pose proof (one_bits Hv Fv Vv) as E. unfold r, logex1. rewrite fin_case by auto. rewrite E, w_fw. destruct (pn || he), he, f; vm_compute; reflexivity.
  - intros Hp E. unfold r, logex1. rewrite Hp. destruct (inf_case false) as (_ & _ & A & B & C & _). rewrite E, A, B, C. now destruct he.
  - intros Hp N. unfold r, logex1. rewrite Hp. destruct (nan_case Hv N 0) as (A & B & C). rewrite A, B, C. now destruct he.
  - intros Hh C. unfold r, logex1. rewrite Hh. assert (E : flt w v 0 = true).
    { destruct C as [-> | [Fv Vv]]. { apply (inf_case true). } rewrite w_fw, (flt_val Hv W0 Fv F0), V0. now apply Rlt_bool_true. }
    rewrite E. apply inv_nan; auto. destruct C as [-> | [Fv _]]; [left; right; reflexivity|auto].
  - intros Hh C. assert (Fv : isfin f v = true) by (destruct C as [-> | ->]; unfold isfin; rewrite dec_szero; reflexivity).
    unfold r, logex1. rewrite Hh. rewrite dz_inf by auto. assert (E : feq w v 0 = true /\ flt w v 0 = false) by (rewrite w_fw; destruct C as [-> | ->]; destruct f; vm_compute; auto).
    destruct E as [-> ->]. reflexivity.
Qed.
End Sp.
(** Specification *)
Definition log_values (f : fmt) (pn he : bool) (v r : Z) : Prop :=
  (isfin f v = true -> val f v = 1%R -> r = szero f false) /\                                                 (* log(1) = +0 *)
  (pn || he = true -> v = infs f false -> r = infs f false) /\                                                (* log(+inf) = +inf *)
  (pn || he = true -> isnanb f v = true -> r = v) /\                                                          (* the same NaN *)
  (he = true -> v = infs f true \/ (isfin f v = true /\ (val f v < 0)%R) -> isnanb f r = true).               (* x < 0: NaN *)
Lemma log_each X nn fm pn he a (P : Z -> Z -> Prop) : xty_ok X -> is_int (xT X) = false -> shaped X a ->
  (forall v, word (fw (xf X)) v -> forall g, P v (logex1 (X := X) pn he nn (if feq (xw X) v (fone (xw X)) then 0%Z else g v) v)) ->
  each1 X a (x_log X fm pn he nn a) P /\ each1 X a (x_log2 X fm pn he nn a) P /\ each1 X a (x_log10 X fm pn he nn a) P.
Proof.
  intros HX HF Ha H. split; [|split].
  - apply (lw_each HX HF P (k_log_lw HX HF fm pn he nn)); auto. intros v Hv. apply (H v Hv (fun v => elog1 (X := X) fm nn (lnorm1 (X := X) nn v))).
  - apply (lw_each HX HF P (k_log2_lw HX HF fm pn he nn)); auto. intros v Hv. apply (H v Hv (fun v => log2_1 (X := X) fm nn (lnorm1 (X := X) nn v))).
  - apply (lw_each HX HF P (k_log10_lw HX HF fm pn he nn)); auto. intros v Hv. apply (H v Hv (ev10 (X := X) fm nn)).
Qed.
(** Missing from C41: log(+-0) = -inf, which does not hold (C41_log_zero_refuted). *)
Theorem C41_log_partial : forall nn X fm pn he a, xty_ok X -> is_int (xT X) = false -> shaped X a ->
  let P := log_values (xf X) pn he in
  each1 X a (x_log X fm pn he nn a) P /\ each1 X a (x_log2 X fm pn he nn a) P /\ each1 X a (x_log10 X fm pn he nn a) P.
Proof.
  intros nn X fm pn he a HX HF Ha P. apply log_each; auto. intros v Hv g. destruct (logex_spec HX HF pn he nn g Hv) as (A & B & C & D & _). exact (conj A (conj B (conj C D))).
Qed.
Print Assumptions C41_log_partial.
Example C41_log_case : xty_ok (f4 sse2) /\ x_log (f4 sse2) false true false nans0 [[0x3f800000; 0x7f800000; 0x7fc00001; 0x402df854]]%Z = Ok [[0; 0x7f800000; 0x7fc00001; 0x3f800000]]%Z.   (* 1, inf, NaN, e *)
Proof. split; [xok|vm_compute; reflexivity]. Qed.
(** With DPM_HANDLE_ERRORS, log, log2 and log10 of +0 and of -0 are +inf: the sign is wrong. *)
Theorem C41_log_zero_refuted : forall nn X fm pn a, xty_ok X -> is_int (xT X) = false -> shaped X a ->
  let P := fun v r => iszero (xf X) v -> r = infs (xf X) false /\ r <> infs (xf X) true in
  each1 X a (x_log X fm pn true nn a) P /\ each1 X a (x_log2 X fm pn true nn a) P /\ each1 X a (x_log10 X fm pn true nn a) P.
Proof.
  intros nn X fm pn a HX HF Ha P. apply log_each; auto. intros v Hv g C. destruct (logex_spec HX HF pn true nn g Hv) as (_ & _ & _ & _ & D). rewrite (D eq_refl C). split; auto. destruct (xf X); discriminate.
Qed.
Print Assumptions C41_log_zero_refuted.

Section Sp1.
Context {X : xty} (HX : xty_ok X) (HF : is_int (xT X) = false) (fm pn he : bool) (nn : nans).
Local Notation f := (xf X).
Local Notation w := (xw X).
Lemma m1_ok : word (fw f) (fminus1 (fw f)) /\ isfin f (fminus1 (fw f)) = true /\ val f (fminus1 (fw f)) = (-1)%R.
Proof.
  destruct (@fone_ok f) as (A & B & C). destruct (@fneg_ok f (fone (fw f)) A) as (D & E & F & _). replace (fminus1 (fw f)) with (fneg (fw f) (fone (fw f))) by (destruct f; reflexivity).
  split; auto. rewrite E, F, C. split; auto. 
Qed.
Lemma feq_val a b : word (fw f) a -> word (fw f) b -> isfin f a = true -> isfin f b = true -> feq (fw f) a b = true -> val f a = val f b.
Proof. intros Ha Hb Fa Fb H. unfold feq in H. rewrite (val_key Ha Fa), (val_key Hb Fb). assert (fkey (fw f) a = fkey (fw f) b) as -> by lia. reflexivity. Qed.
Lemma val_feq a b : word (fw f) a -> word (fw f) b -> isfin f a = true -> isfin f b = true -> val f a = val f b -> feq (fw f) a b = true.
Proof.
  intros Ha Hb Fa Fb H. unfold feq. rewrite (fin_fnan Ha Fa), (fin_fnan Hb Fb). cbn [negb andb].
  pose proof (@flt_val f a b Ha Hb Fa Fb) as P. pose proof (@flt_val f b a Hb Ha Fb Fa) as Q. rewrite H in P, Q. rewrite Rlt_bool_false in P, Q by lra.
  unfold flt in P, Q. rewrite (fin_fnan Ha Fa), (fin_fnan Hb Fb) in *. cbn [negb andb] in *. lia.
Qed.
Lemma log1p_spec v : word (fw f) v -> let r := log1p1 (X := X) fm pn he nn v in
  (iszero f v -> r = szero f false) /\
  (pn || he = true -> v = infs f false -> r = infs f false) /\ (pn || he = true -> isnanb f v = true -> r = v) /\
  (he = true -> v = infs f true \/ (isfin f v = true /\ (val f v < -1)%R) -> isnanb f r = true) /\
  (he = true -> (0 <= v < 2 ^ mw f)%Z -> r = v) /\
  (he = true -> isfin f v = true -> val f v = (-1)%R -> r = infs f false).
Proof.
  intros Hv r. destruct m1_ok as (W0 & F0 & V0).
  assert (LS : (mant w = mw f)%Z) by (rewrite w_fw by auto; destruct f; reflexivity).
  split; [|split; [|split; [|split; [|split]]]].
  - intros Z0. assert (E : feq w v 0 = true) by (rewrite w_fw by auto; destruct Z0 as [-> | ->]; destruct f; reflexivity).
    assert (Fv : isfin f v = true) by (destruct Z0 as [-> | ->]; unfold isfin; rewrite dec_szero; reflexivity).
    unfold r, log1p1. rewrite E. unfold log1pex1. rewrite fin_case by auto. rewrite w_fw by auto. destruct Z0 as [-> | ->]; destruct (pn || he), he, f; vm_compute; reflexivity.
  - intros Hp E. unfold r, log1p1, log1pex1. rewrite Hp. destruct (inf_case HX HF false) as (_ & _ & A & B & C & _). rewrite E, C.
    replace (feq w (infs f false) (fminus1 w)) with false by (rewrite w_fw by auto; destruct f; reflexivity).
    replace (flt w (infs f false) (fminus1 w)) with false by (rewrite w_fw by auto; destruct f; reflexivity).
    replace (lshr_bits (mant w) (infs f false) =? 0)%Z with false by (rewrite w_fw by auto; destruct f; reflexivity). now destruct he.
  - intros Hp N. unfold r, log1p1, log1pex1. rewrite Hp. destruct (nan_case HX HF Hv N (fminus1 w)) as (A & B & C). rewrite A, B, C.
    destruct he; auto. destruct (lshr_bits _ v =? 0)%Z; auto.
  - intros Hh C. unfold r, log1p1, log1pex1. rewrite Hh. assert (E : flt w v (fminus1 w) = true).
    { destruct C as [-> | [Fv Vv]]. { rewrite w_fw by auto. destruct f; reflexivity. } rewrite w_fw by auto. rewrite (flt_val Hv W0 Fv F0), V0. now apply Rlt_bool_true. }
    rewrite E. apply inv_nan; auto. destruct C as [-> | [Fv _]]; [left; right; reflexivity|auto].
  - intros Hh C. unfold r, log1p1, log1pex1. rewrite Hh. assert (E : lshr_bits (mant w) v = 0%Z).
    { rewrite LS. unfold lshr_bits. apply Z.div_small. exact C. }
    rewrite E. cbn [Z.eqb].
    assert (Mv : fmag (fw f) v = v). { unfold fmag. apply Z.mod_small. clear -C. destruct f; cbn in *; lia. }
    assert (Fv : isfin f v = true). { rewrite (isfin_spec Hv), Mv. clear -C. destruct f; cbn in *; lia. }
    assert (Sv : fsign (fw f) v = false). { unfold fsign. clear -C. destruct f; cbn in *; lia. }
    assert (Kv : fkey (fw f) v = v). { unfold fkey. now rewrite Sv. }
    assert (Km : (fkey (fw f) (fminus1 (fw f)) < 0)%Z) by (destruct f; reflexivity).
    replace (feq w v (fminus1 w)) with false by (rewrite w_fw by auto; unfold feq; lia).
    replace (flt w v (fminus1 w)) with false by (rewrite w_fw by auto; unfold flt; lia). reflexivity.
  - intros Hh Fv Vv. unfold r, log1p1, log1pex1. rewrite Hh. rewrite dz_inf by auto.
    replace (feq w v (fminus1 w)) with true by (rewrite w_fw by auto; symmetry; apply val_feq; auto; congruence).
    replace (flt w v (fminus1 w)) with false by (rewrite w_fw by auto; symmetry; rewrite (flt_val Hv W0 Fv F0); apply Rlt_bool_false; lra). reflexivity.
Qed.
End Sp1.
(** log1p: +inf, NaN, x < -1; log1p(+-0) = +0.  Missing from C41: log1p(-1) = -inf (refuted below); log1p(-0) = -0 in C is +0 here. *)
Theorem C41_log1p_partial : forall nn X fm pn he a, xty_ok X -> is_int (xT X) = false -> shaped X a ->
  each1 X a (x_log1p X fm pn he nn a) (fun v r =>
    (iszero (xf X) v -> r = szero (xf X) false) /\
    (pn || he = true -> v = infs (xf X) false -> r = infs (xf X) false) /\ (pn || he = true -> isnanb (xf X) v = true -> r = v) /\
    (he = true -> v = infs (xf X) true \/ (isfin (xf X) v = true /\ (val (xf X) v < -1)%R) -> isnanb (xf X) r = true)).
Proof.
  intros nn X fm pn he a HX HF Ha. eapply (lw_each HX HF _ (k_log1p_lw HX HF fm pn he nn)); auto. intros v Hv.
  destruct (log1p_spec HX HF fm pn he nn Hv) as (A & B & C & D & _). exact (conj A (conj B (conj C D))).
Qed.
Print Assumptions C41_log1p_partial.
Example C41_log1p_case : xty_ok (f4 sse2) /\ x_log1p (f4 sse2) false true false nans0 [[0x80000000; 0x7f800000; 0x7fc00001; 0x3fdbf0a9]]%Z = Ok [[0; 0x7f800000; 0x7fc00001; 0x3f800000]]%Z.   (* -0, inf, NaN, e - 1 *)
Proof. split; [xok|vm_compute; reflexivity]. Qed.
Theorem C41_log1p_minus_one_refuted : forall nn X fm pn a, xty_ok X -> is_int (xT X) = false -> shaped X a ->
  each1 X a (x_log1p X fm pn true nn a) (fun v r => isfin (xf X) v = true -> val (xf X) v = (-1)%R -> r = infs (xf X) false /\ r <> infs (xf X) true).
Proof.
  intros nn X fm pn a HX HF Ha. eapply (lw_each HX HF _ (k_log1p_lw HX HF fm pn true nn)); auto. intros v Hv Fv Vv.
  destruct (log1p_spec HX HF fm pn true nn Hv) as (_ & _ & _ & _ & _ & D). rewrite D; auto. split; auto. destruct (xf X); discriminate.
Qed.
Print Assumptions C41_log1p_minus_one_refuted.

(** *** C51: log1p near zero *)
(** With DPM_HANDLE_ERRORS: log1p of a positive subnormal is its argument. *)
Theorem C51_log1p_subnormal_partial : forall nn X fm pn a, xty_ok X -> is_int (xT X) = false -> shaped X a ->
  each1 X a (x_log1p X fm pn true nn a) (fun v r => (0 <= v < 2 ^ mw (xf X))%Z -> r = v).
Proof.
  intros nn X fm pn a HX HF Ha. eapply (lw_each HX HF _ (k_log1p_lw HX HF fm pn true nn)); auto. intros v Hv C.
  destruct (log1p_spec HX HF fm pn true nn Hv) as (_ & _ & _ & _ & D & _). apply D; auto.
Qed.
Print Assumptions C51_log1p_subnormal_partial.
(** 1 + r rounds to 1 *)
Lemma rnd_near_one f r : (Rabs r < bpow radix2 (- prec f - 1))%R -> rnd f (1 + r) = 1%R.
Proof.
  intros H. destruct (@fone_ok f) as (_ & _ & V1). pose proof (@fmt_val f (fone (fw f))) as G1. rewrite V1 in G1.
  pose proof (@rnd_near f (1 + r) 1 G1) as N. replace (1 - (1 + r))%R with (- r)%R in N by ring. rewrite Rabs_Ropp in N.
  set (y := rnd f (1 + r)) in *. assert (D : (Rabs (y - 1) < bpow radix2 (- prec f))%R).
  { replace (y - 1)%R with ((y - (1 + r)) + r)%R by ring. eapply Rle_lt_trans; [apply Rabs_triang|].
    replace (- prec f)%Z with (- prec f - 1 + 1)%Z by lia. rewrite bpow_plus. change (bpow radix2 1) with 2%R. lra. }
  assert (B : (bpow radix2 (- prec f) <= / 2)%R). { change (/ 2)%R with (bpow radix2 (-1)). apply bpow_le. destruct f; cbn; lia. }
  assert (Gy : generic_format radix2 (SpecFloat.fexp (prec f) (emax f)) y) by (unfold y, rnd; apply generic_format_round; [apply fexp_correct; apply Hprec|apply valid_rnd_N]).
  destruct (@fmt_mult f y (-1) Gy) as [m Em]. { change (bpow radix2 (-1)) with (/ 2)%R. apply Rabs_lt_inv in D. lra. }
  replace (-1 - mw f)%Z with (- prec f)%Z in Em by (unfold prec; lia).
  assert (E1 : 1%R = (IZR (2 ^ prec f) * bpow radix2 (- prec f))%R).
  { change (2 ^ prec f)%Z with (Zpower radix2 (prec f)). rewrite IZR_Zpower by (destruct f; cbn; lia). rewrite <- bpow_plus. replace (prec f + - prec f)%Z with 0%Z by lia. reflexivity. }
  rewrite Em, E1, <- Rmult_minus_distr_r, <- minus_IZR, Rabs_mult, (Rabs_pos_eq (bpow radix2 _)) in D by apply bpow_ge_0.
  assert (Z.abs (m - 2 ^ prec f) < 1)%Z. { apply lt_IZR. rewrite abs_IZR. pose proof (bpow_gt_0 radix2 (- prec f)). apply (Rmult_lt_reg_r (bpow radix2 (- prec f))); lra. }
  rewrite Em, E1. f_equal. f_equal. lia.
Qed.
Section Tiny.
Context {X : xty} (HX : xty_ok X) (HF : is_int (xT X) = false) (fm pn he : bool) (nn : nans).
Local Notation f := (xf X).
Local Notation w := (xw X).
Lemma near_one_val v y : word (fw f) y -> isfin f y = true -> val f y = 1%R -> v = y -> v = fone (fw f).
Proof. intros A B C ->. now apply one_bits. Qed.
Lemma tiny_ev v : word (fw f) v -> isfin f v = true -> (Rabs (val f v) < bpow radix2 (- prec f - 1))%R -> ev1p (X := X) fm nn v = 0%Z.
Proof.
  intros Hv Fv B. destruct (@fone_ok f) as (W1 & F1 & V1). assert (Bm : (1 < bpow radix2 (emax f))%R). { change 1%R with (bpow radix2 0). apply bpow_lt. destruct f; reflexivity. }
  assert (U : fadd nn f v (fone w) = fone (fw f)).
  { rewrite w_fw by auto. assert (R : rnd f (val f v + val f (fone (fw f))) = 1%R) by (rewrite V1, Rplus_comm; now apply rnd_near_one).
    destruct (@fadd_fin nn f v (fone (fw f)) Hv W1 Fv F1) as (A & C & _). { rewrite R, Rabs_R1. exact Bm. } apply one_bits; auto. apply fadd_word. congruence. }
  assert (S : fsub nn f (fone w) v = fone (fw f)).
  { rewrite w_fw by auto. assert (R : rnd f (val f (fone (fw f)) - val f v) = 1%R) by (rewrite V1; apply (@rnd_near_one f (- val f v)); now rewrite Rabs_Ropp).
    destruct (@fsub_fin nn f (fone (fw f)) v W1 Hv F1 Fv) as (A & C & _). { rewrite R, Rabs_R1. exact Bm. } apply one_bits; auto. apply fsub_word. congruence. }
  unfold ev1p. cbv zeta. rewrite U, <- w_fw by auto. rewrite S.
  assert (K : (0 >? sgn w ((lshr_bits (mant w) ((fone w + koff (X := X)) mod 2 ^ w) - kbias (X := X)) mod 2 ^ w))%Z = false).
  { unfold koff, kbias. rewrite w_fw by auto. destruct f; reflexivity. }
  rewrite K. unfold elog1, linvc, llogc, lz, lk, lcvt, lidx, ltmp. rewrite w_fw by auto. clear. destruct (_ || _); unfold fmadd1, fmsub1; destruct fm, f; destruct nn; vm_compute; reflexivity.
Qed.
End Tiny.
(** In all other cases log1p(x) = 0 when |x| < 2^-25 (float), 2^-54 (double): all significant digits of log1p(x) ~ x are lost,
    because the correction term is taken from the formula meant for large x. *)
Theorem C51_log1p_tiny_refuted : forall nn X fm pn he a, xty_ok X -> is_int (xT X) = false -> shaped X a ->
  each1 X a (x_log1p X fm pn he nn a) (fun v r => isfin (xf X) v = true ->
    (bpow radix2 (1 - emax (xf X) + 1) <= Rabs (val (xf X) v) < bpow radix2 (- prec (xf X) - 1))%R -> r = szero (xf X) false).
Proof.
  intros nn X fm pn he a HX HF Ha. eapply (lw_each HX HF _ (k_log1p_lw HX HF fm pn he nn)); auto. intros v Hv Fv [Bl Bh].
  unfold log1p1. rewrite tiny_ev by auto. replace (if feq (xw X) v 0 then 0%Z else 0%Z) with 0%Z by (destruct (feq (xw X) v 0); reflexivity).
  unfold log1pex1. rewrite fin_case by auto. destruct (@m1_ok X) as (W0 & F0 & V0).
  assert (Bp : (bpow radix2 (- prec (xf X) - 1) < 1)%R). { change 1%R with (bpow radix2 0). apply bpow_lt. destruct (xf X); cbn; lia. }
  assert (E1 : feq (xw X) v (fminus1 (xw X)) = false).
  { rewrite w_fw by auto. destruct (feq _ v _) eqn:Q; auto. apply feq_val in Q; auto. rewrite V0 in Q. rewrite Q in Bh. change (-1)%R with (- (1))%R in Bh. rewrite Rabs_Ropp, Rabs_R1 in Bh. lra. }
  assert (E2 : flt (xw X) v (fminus1 (xw X)) = false).
  { rewrite w_fw by auto. rewrite (flt_val Hv W0 Fv F0), V0. apply Rlt_bool_false. apply Rabs_lt_inv in Bh. lra. }
  assert (E3 : (lshr_bits (mant (xw X)) v =? 0)%Z = false).
  { apply Z.eqb_neq. unfold lshr_bits. rewrite w_fw by auto. intros Q. assert (Hs : (0 <= v < 2 ^ mant (fw (xf X)))%Z).
    { apply Z.div_small_iff in Q. destruct Q as [Q|Q]; [exact Q|]. destruct Hv. lia. destruct (xf X); cbn; lia. }
    assert (Mv : fmag (fw (xf X)) v = v) by (unfold fmag; apply Z.mod_small; clear -Hs; destruct (xf X); cbn in *; lia).
    assert (Sv : fsign (fw (xf X)) v = false) by (unfold fsign; clear -Hs; destruct (xf X); cbn in *; lia).
    rewrite (val_sgnr Hv Fv), Sv, Mv in Bl. cbn [sgnr] in Bl. rewrite Rabs_pos_eq in Bl by (apply mval_ge0; lia).
    assert (Hm : (mval (xf X) v < bpow radix2 (1 - emax (xf X) + 1))%R).
    { unfold mval. assert (Ms : msig (xf X) v = v /\ (mex (xf X) v = 1 - emax (xf X) + 1 - mw (xf X))%Z).
      { unfold msig, mex, mexp, mman. rewrite (Z.div_small v), (Z.mod_small v) by (clear -Hs; destruct (xf X); cbn in *; lia). cbn [Z.eqb]. clear. destruct (xf X); split; reflexivity. }
      destruct Ms as [-> ->]. replace (1 - emax (xf X) + 1)%Z with (mw (xf X) + (1 - emax (xf X) + 1 - mw (xf X)))%Z at 2 by lia. rewrite bpow_plus.
      apply Rmult_lt_compat_r; [apply bpow_gt_0|]. rewrite <- IZR_Zpower by (destruct (xf X); cbn; lia). apply IZR_lt. clear -Hs. destruct (xf X); cbn in *; lia. }
    lra. }
  rewrite E1, E2, E3. destruct (pn || he), he, (xf X); reflexivity.
Qed.
Print Assumptions C51_log1p_tiny_refuted.
Example C51_case : isfin F64 0x3c67eb84ccfb4ac0 = true /\ x_log1p (d2 sse2) false true true nans0 [[0x3c67eb84ccfb4ac0; 0x3ff0000000000000]]%Z = Ok [[0; 0x3fe62e42fefa39ef]]%Z.
Proof. split; vm_compute; reflexivity. Qed.

(** *** C52, C53 *)
Section Pos.
Context {X : xty} (HX : xty_ok X) (HF : is_int (xT X) = false) (fm pn he : bool) (nn : nans).
Local Notation f := (xf X).
Local Notation w := (xw X).
Lemma logex_pos y v : word (fw f) v -> isfin f v = true -> (0 < val f v)%R -> logex1 (X := X) pn he nn y v = y.
Proof.
  intros Hv Fv P. destruct (@zero_ok f) as (W0 & F0 & V0). unfold logex1. rewrite fin_case by auto.
  assert (E1 : feq w v 0 = false). { rewrite w_fw by auto. destruct (feq _ v 0) eqn:Q; auto. apply (@feq_val X) in Q; auto. lra. }
  assert (E2 : flt w v 0 = false). { rewrite w_fw by auto. rewrite (flt_val Hv W0 Fv F0), V0. apply Rlt_bool_false. lra. }
  rewrite E1, E2. now destruct (pn || he), he.
Qed.
Lemma pow2_word k : esz (xT X) = 4 -> (-126 <= k <= 127)%Z -> word (fw f) ((k + 127) * 2 ^ 23) /\ isfin f ((k + 127) * 2 ^ 23) = true /\ val f ((k + 127) * 2 ^ 23) = bpow radix2 k.
Proof.
  intros E4 Hk. rewrite (@Ef4 X E4). set (v := ((k + 127) * 2 ^ 23)%Z). assert (Hv : word (fw F32) v) by (unfold word, v; cbn; lia). split; auto.
  assert (Mv : fmag (fw F32) v = v) by (unfold fmag; apply Z.mod_small; unfold v; cbn; lia).
  assert (Fv : isfin F32 v = true). { rewrite (isfin_spec Hv), Mv. unfold v. cbn. lia. } split; auto.
  rewrite (val_sgnr Hv Fv), Mv. replace (fsign (fw F32) v) with false by (unfold fsign, v; cbn; lia). cbn [sgnr]. unfold mval.
  assert (E : mexp F32 v = (k + 127)%Z /\ mman F32 v = 0%Z). { unfold mexp, mman, v. cbn [mw]. rewrite Z.div_mul, Z.mod_mul by lia. auto. }
  destruct E as [Ee Em]. unfold msig, mex. rewrite Ee, Em. replace (k + 127 =? 0)%Z with false by lia. replace (0 + 2 ^ mw F32)%Z with (Zpower radix2 23) by reflexivity. rewrite IZR_Zpower by lia. rewrite <- bpow_plus. f_equal. change (emin F32) with (-149)%Z. lia.
Qed.
End Pos.
Lemma pow2_all nn X fm : esz (xT X) = 4 ->
  forallb (fun n => log2_1 (X := X) fm nn (lnorm1 (X := X) nn (n * 2 ^ 23)) =? fof_int F32 (n - 127))%Z (map (fun i => Z.of_nat i + 1)%Z (seq 0 254)) = true.
Proof. destruct X as [c [e kd] vs N]. cbn [xT esz]. intros ->. destruct nn, fm; vm_compute; reflexivity. Qed.
Lemma fone_pow : fone 32 = (127 * 2 ^ 23)%Z. Proof. reflexivity. Qed.
(** log2(2^k) = k exactly, for all normal float powers of two. *)
Theorem C52_log2_powers_float_partial : forall nn X fm pn he a, xty_ok X -> is_int (xT X) = false -> esz (xT X) = 4 -> shaped X a ->
  each1 X a (x_log2 X fm pn he nn a) (fun v r => forall k, (-126 <= k)%Z -> isfin F32 v = true -> val F32 v = bpow radix2 k -> isfin F32 r = true /\ val F32 r = IZR k).
Proof.
  intros nn X fm pn he a HX HF E4 Ha. eapply (lw_each HX HF _ (k_log2_lw HX HF fm pn he nn)); auto. intros v Hv k Hk Fv Vv. pose proof (@Ef4 X E4) as Ef.
  assert (K2 : (k <= 127)%Z). { pose proof (@val_lt_emax F32 v) as B. rewrite Vv, Rabs_pos_eq in B by apply bpow_ge_0. apply lt_bpow in B. cbn in B. lia. }
  destruct (pow2_word HF (k := k) E4 ltac:(lia)) as (A & B & C). rewrite Ef in *.
  assert (Ev : v = ((k + 127) * 2 ^ 23)%Z).
  { apply (@bits_inj F32); auto. congruence. assert (Sp : forall x, word (fw F32) x -> isfin F32 x = true -> val F32 x = bpow radix2 k -> fsign (fw F32) x = false).
    { intros x Wx Fx Vx. destruct (fsign (fw F32) x) eqn:E; auto. pose proof (val_sgnr Wx Fx) as Q. rewrite E in Q. cbn [sgnr] in Q. pose proof (mval_ge0 F32 (fin_word F32 Wx)). pose proof (bpow_gt_0 radix2 k). lra. }
    now rewrite !Sp. }
  assert (R : log2l (X := X) fm pn he nn v = fof_int F32 k).
  { unfold log2l. rewrite logex_pos; auto; rewrite ?Ef; auto; [|rewrite Vv; apply bpow_gt_0].
    destruct (Z.eq_dec k 0) as [-> | Nk]. { rewrite Ev, (@Ew4 X E4). reflexivity. }
    replace (feq (xw X) v (fone (xw X))) with false.
    2:{ symmetry. rewrite (@Ew4 X E4). destruct (feq 32 v (fone 32)) eqn:Q; auto. destruct (@fone_ok F32) as (W1 & F1 & V1).
        assert (V : val F32 v = val F32 (fone (fw F32))). { pose proof (@feq_val X) as FV. rewrite Ef in FV. apply FV; auto. }
        rewrite V1, Vv in V. exfalso. apply Nk. apply (bpow_inj radix2). rewrite V. reflexivity. }
    rewrite Ev. pose proof (pow2_all nn X fm E4) as Q. rewrite forallb_forall in Q. specialize (Q (k + 127)%Z). rewrite Z.eqb_eq in Q. replace (k + 127 - 127)%Z with k in Q by lia. apply Q.
    apply in_map_iff. exists (Z.to_nat (k + 126)). split; [lia|]. apply in_seq. lia. }
  rewrite R. destruct (@fof_int_ok F32 k) as (_ & F1 & V1 & _). lia. split; auto. rewrite V1. apply rnd_int_exact. cbn. lia.
Qed.
Print Assumptions C52_log2_powers_float_partial.
Example C52_case : x_log2 (f4 sse2) false true true nans0 [[0x00800000; 0x3f000000; 0x41000000; 0x7f000000]]%Z = Ok [[0xc2fc0000; 0xbf800000; 0x40400000; 0x42fe0000]]%Z.   (* 2^-126, 1/2, 8, 2^127 *)
Proof. vm_compute. reflexivity. Qed.
Section Const.
Context {X : xty} (HX : xty_ok X) (HF : is_int (xT X) = false).
Lemma const_each K g c (P : Z -> Z -> Prop) : @lanewise X K g -> word (fw (xf X)) c -> P c (g c) ->
  exists a, shaped X a /\ each1 X a (vz1 X K a) P /\ Forall (fun v => v = c) (elems X a).
Proof.
  intros H Wc HP. destruct (@fill_ok X HX HF c Wc) as [S A]. eexists. split; [exact S|]. split.
  - destruct (lw_each HX HF (fun v r => r = g v) H S (fun v _ => eq_refl)) as (r & R1 & R2 & R3). exists r. split; auto. split; auto.
    intros i x Hx. destruct (R3 i x Hx) as (y & Y1 & Y2). exists y. split; auto. rewrite Y2, (A i x Hx). exact HP.
  - apply Forall_forall. intros x Hx. destruct (In_nth_error _ _ Hx) as [i Hi]. exact (A i x Hi).
Qed.
End Const.
(** double: log2(8) = 3 + 7 * 2^-51 *)
Theorem C52_log2_double_refuted : forall nn X fm pn he, xty_ok X -> is_int (xT X) = false -> esz (xT X) = 8 ->
  exists a, shaped X a /\ each1 X a (x_log2 X fm pn he nn a) (fun v r => v = 0x4020000000000000%Z /\ val F64 v = bpow radix2 3 /\ r = 0x4008000000000007%Z /\ (val F64 r > 3)%R) /\ Forall (fun v => v = 0x4020000000000000%Z) (elems X a).
Proof.
  intros nn X fm pn he HX HF E8. destruct (xT_float HX HF) as [(E & _) | (_ & Ef & Ew)]; [congruence|].
  assert (Wc : word (fw F64) 0x4020000000000000) by (unfold word; cbn; lia).
  assert (Wr : word (fw F64) 0x4008000000000007) by (unfold word; cbn; lia).
  assert (Fc : isfin F64 0x4020000000000000 = true) by (vm_compute; reflexivity). assert (Fr : isfin F64 0x4008000000000007 = true) by (vm_compute; reflexivity).
  assert (Vc : val F64 0x4020000000000000 = bpow radix2 3).
  { rewrite (val_sgnr Wc Fc). unfold mval. change (fsign (fw F64) 0x4020000000000000) with false. change (fmag (fw F64) 0x4020000000000000) with 0x4020000000000000%Z. cbn [sgnr].
    change (msig F64 0x4020000000000000) with (Zpower radix2 52). change (mex F64 0x4020000000000000) with (-49)%Z. rewrite IZR_Zpower by lia. rewrite <- bpow_plus. reflexivity. }
  assert (Vr : (val F64 0x4008000000000007 > 3)%R).
  { rewrite (val_sgnr Wr Fr). unfold mval. change (fsign (fw F64) 0x4008000000000007) with false. change (fmag (fw F64) 0x4008000000000007) with 0x4008000000000007%Z. cbn [sgnr].
    change (msig F64 0x4008000000000007) with (3 * Zpower radix2 51 + 7)%Z. change (mex F64 0x4008000000000007) with (-51)%Z. rewrite plus_IZR, mult_IZR, IZR_Zpower by lia.
    rewrite Rmult_plus_distr_r, Rmult_assoc, <- bpow_plus. change (bpow radix2 (51 + -51)) with 1%R. pose proof (bpow_gt_0 radix2 (-51)). lra. }
  apply (const_each HX HF _ (k_log2_lw HX HF fm pn he nn)). { now rewrite Ef. }
  assert (R : log2l (X := X) fm pn he nn 0x4020000000000000 = 0x4008000000000007%Z).
  { unfold log2l. rewrite logex_pos; auto; rewrite ?Ef; auto; [|rewrite Vc; apply bpow_gt_0].
    replace (feq (xw X) _ _) with false by (rewrite Ew; reflexivity).
    replace (lnorm1 (X := X) nn 0x4020000000000000) with 0x4020000000000000%Z.
    2:{ unfold lnorm1, gtl. rewrite Ew. destruct (l32 X); vm_compute; reflexivity. }
    unfold log2_1, linvc, llogc, lz, lk, lcvt, lidx, ltmp, fmadd1, fmsub1. rewrite Ew, Ef. clear. destruct nn, fm; vm_compute; reflexivity. }
  rewrite R. auto.
Qed.
Print Assumptions C52_log2_double_refuted.

(** C53: the smallest positive number 2^-149 (2^-1074) has log2 -127 (-1023): subnormals are not scaled. *)
Theorem C53_subnormal_refuted : forall nn X fm pn he, xty_ok X -> is_int (xT X) = false ->
  exists a, shaped X a /\ each1 X a (x_log2 X fm pn he nn a) (fun v r => val (xf X) v = bpow radix2 (emin (xf X)) /\ isfin (xf X) r = true /\ val (xf X) r = IZR (1 - emax (xf X))) /\ Forall (fun v => v = 1%Z) (elems X a).
Proof.
  intros nn X fm pn he HX HF.
  assert (Wc : word (fw (xf X)) 1) by (unfold word; destruct (xf X); cbn; lia).
  assert (Fc : isfin (xf X) 1 = true) by (destruct (xf X); vm_compute; reflexivity).
  assert (Vc : val (xf X) 1 = bpow radix2 (emin (xf X))).
  { rewrite (val_sgnr Wc Fc). unfold mval. replace (fsign (fw (xf X)) 1) with false by (destruct (xf X); reflexivity). replace (fmag (fw (xf X)) 1) with 1%Z by (destruct (xf X); reflexivity). cbn [sgnr].
    replace (msig (xf X) 1) with 1%Z by (destruct (xf X); reflexivity). replace (mex (xf X) 1) with (emin (xf X)) by (destruct (xf X); reflexivity). ring. }
  apply (const_each HX HF _ (k_log2_lw HX HF fm pn he nn)); auto. split; auto.
  assert (R : log2l (X := X) fm pn he nn 1 = fof_int (xf X) (1 - emax (xf X))).
  { unfold log2l. rewrite logex_pos; auto; [|rewrite Vc; apply bpow_gt_0].
    replace (feq (xw X) _ _) with false by (rewrite w_fw by auto; destruct (xf X); reflexivity).
    replace (lnorm1 (X := X) nn 1) with 1%Z.
    2:{ unfold lnorm1, gtl. rewrite w_fw by auto. destruct (l32 X), (xf X); vm_compute; reflexivity. }
    unfold log2_1, linvc, llogc, lz, lk, lcvt, lidx, ltmp, fmadd1, fmsub1. rewrite w_fw by auto. clear. destruct (xf X), nn, fm; vm_compute; reflexivity. }
  rewrite R. destruct (@fof_int_ok (xf X) (1 - emax (xf X))) as (_ & F1 & V1 & _). destruct (xf X); cbn; lia. split; auto. rewrite V1. apply rnd_int_exact. destruct (xf X); cbn; lia.
Qed.
Print Assumptions C53_subnormal_refuted.
(** C53: log10 of every double from 2^970 on is the same number (about 292). *)
Theorem C53_log10_double_refuted : forall nn X fm pn he a, xty_ok X -> is_int (xT X) = false -> esz (xT X) = 8 -> shaped X a ->
  each1 X a (x_log10 X fm pn he nn a) (fun v r => isfin F64 v = true -> (bpow radix2 970 <= val F64 v)%R -> r = 0x40723ffc4bdf1110%Z).
Proof.
  intros nn X fm pn he a HX HF E8 Ha. eapply (lw_each HX HF _ (k_log10_lw HX HF fm pn he nn)); auto. intros v Hv Fv Bv.
  destruct (xT_float HX HF) as [(E & _) | (_ & Ef & Ew)]; [congruence|]. rewrite Ef in Hv. pose proof (bpow_gt_0 radix2 970) as P970.
  unfold log10_1. rewrite logex_pos; auto; rewrite ?Ef; auto; [|lra].
  replace (feq (xw X) v (fone (xw X))) with false.
  2:{ symmetry. rewrite Ew. destruct (feq 64 v (fone 64)) eqn:Q; auto. destruct (@fone_ok F64) as (W1 & F1 & V1).
      assert (V : val F64 v = val F64 (fone (fw F64))). { pose proof (@feq_val X) as FV. rewrite Ef in FV. apply FV; auto. }
      assert (bpow radix2 970 > bpow radix2 0)%R by (apply bpow_lt; lia). change (bpow radix2 0) with 1%R in *. lra. }
  assert (Sb : sub10 (X := X) v = true).
  { unfold sub10. rewrite Ew. cbn [Z.eqb Pos.eqb]. unfold lshr_bits. change (word 64 v) in Hv. assert (v / 2 ^ 48 < 2 ^ 16)%Z by (apply Z.div_lt_upper_bound; unfold word in Hv; lia).
    assert (0 <= v / 2 ^ 48)%Z by (apply Z.div_pos; unfold word in Hv; lia). unfold sgn. replace (v / 2 ^ 48 <? 2 ^ (64 - 1))%Z with true by lia. lia. }
  assert (We : word (fw F64) (exp_mult 64)) by (unfold word; cbn; lia).
  assert (Fe : isfin F64 (exp_mult 64) = true) by (vm_compute; reflexivity).
  assert (Ve : val F64 (exp_mult 64) = bpow radix2 54).
  { rewrite (val_sgnr We Fe). unfold mval. change (fsign (fw F64) (exp_mult 64)) with false. change (fmag (fw F64) (exp_mult 64)) with (exp_mult 64). cbn [sgnr].
    change (msig F64 (exp_mult 64)) with (Zpower radix2 52). change (mex F64 (exp_mult 64)) with 2%Z. rewrite IZR_Zpower by lia. rewrite <- bpow_plus. reflexivity. }
  assert (Sv : fsign (fw F64) v = false).
  { destruct (fsign (fw F64) v) eqn:E; auto. pose proof (val_sgnr Hv Fv) as Q. rewrite E in Q. cbn [sgnr] in Q. pose proof (mval_ge0 F64 (fin_word F64 Hv)). lra. }
  assert (Hi : ix10 (X := X) nn v = infs F64 false).
  { unfold ix10. rewrite Sb, Ew, Ef. rewrite fmul_ovf; auto. rewrite Sv. reflexivity.
    rewrite Ve. apply rnd_ge_bpow. cbn; lia. rewrite Rabs_pos_eq. 2:{ apply Rmult_le_pos. lra. apply bpow_ge_0. }
    change (emax F64) with (970 + 54)%Z. rewrite bpow_plus. apply Rmult_le_compat_r; auto. apply bpow_ge_0. }
  unfold ev10, iy10, sk10, kk10, k10. rewrite Hi, Sb.
  unfold elog1, linvc, llogc, lz, lk, lcvt, lidx, ltmp, fmadd1, fmsub1. rewrite Ew, Ef. clear. destruct nn, fm; vm_compute; reflexivity.
Qed.
Print Assumptions C53_log10_double_refuted.
Example C53_log10_case : isfin F64 0x7fe0000000000000 = true /\ x_log10 (d2 sse2) true true true nans0 [[0x7fe0000000000000; 0x7c90000000000000]]%Z = Ok [[0x40723ffc4bdf1110; 0x40723ffc4bdf1110]]%Z.
Proof. split; vm_compute; reflexivity. Qed.
