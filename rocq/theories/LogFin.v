(** Accuracy of eval_log and of the core of log2 on positive normal numbers, all bounds checked by computation. *)
From Coq Require Import ZifyBool ZifyNat Reals Lra.
From Flocq Require Import Core IEEE754.BinarySingleNaN IEEE754.Binary.
From Verif Require Import Base Cxx Spec X86Vec X86 X86Lemmas X86Proofs X86Ops Fp FpLemmas FpOps FMath FMathProofs FLane FFields FManip FManipLanes PropManip Round RoundProofs RoundSem FArith Cvt CvtProofs LogbProofs PropArith FCvt PropHypot PropIeee FRoute FRouteProofs LogTab Log LogProofs PropLog
  FErr IvPoly TrigTab SinPoly LnBound LogRed LogAcc LogNum LogTot.
Set Implicit Arguments.
Open Scope Z_scope.

Definition core1 {X : xty} (b fm : bool) (nn : nans) (x : Z) : Z := if b then log2_1 (X := X) fm nn x else elog1 (X := X) fm nn x.
(** the value computed before any rounding *)
Definition coreR (f : fmt) (b : bool) (k : Z) (l r : R) : R := (IZR k * lnc b f + l + r * hornerR (lpolyR b f) r)%R.
Lemma pair_snd (p : Z * bool) : snd p = true -> p = (fst p, true).
Proof. destruct p; cbn [snd fst]; now intros ->. Qed.
Lemma one_val f : val f (fone (fw f)) = 1%R.
Proof. rewrite zc_ok by (destruct f; reflexivity). replace (zc f (fone (fw f))) with (2 ^ 140) by (destruct f; reflexivity). apply UU_inv. Qed.
Section Rnd.
Context (nn : nans) {X : xty} (HX : xty_ok X) (HF : is_int (xT X) = false) (fm : bool).
Variables (z ic lc kf hi k : Z).
Hypotheses (Az : ap (xf X) z (mval (xf X) z) 0 (3 * 2 ^ 139)) (Ac : ap (xf X) ic (val (xf X) ic) 0 (3 * 2 ^ 139)) (Ak : ap (xf X) kf (IZR k) 0 (hi * S140)).
Lemma rnd_part b x : ap (xf X) lc (val (xf X) lc) 0 (mlZ b) -> (Rabs (mval (xf X) z * val (xf X) ic - 1) <= IZR (rhoZ b (xf X)) * UU)%R -> snd (roundE b (xf X) hi) = true ->
  lz (X := X) x = z -> lcvt (X := X) (lk (X := X) x) = kf -> linvc (X := X) (lbits b (xw X)) (ltab b (xw X)) x = ic -> llogc (X := X) (lbits b (xw X)) (ltab b (xw X)) x = lc ->
  exists m, ap (xf X) (core1 (X := X) b fm nn x) (coreR (xf X) b k (val (xf X) lc) (mval (xf X) z * val (xf X) ic - 1)) (fst (roundE b (xf X) hi)) m.
Proof.
  intros Al Br O Ez Ek Ec El. pose proof (w_fw HX HF) as Ew. 
  assert (RH : 0 <= rhoZ b (xf X)) by (destruct b, (xf X); discriminate). assert (Sr : rO (xf X) (rhoZ b (xf X)) = true) by (destruct b, (xf X); vm_compute; reflexivity).
  assert (Ar := r_ap nn HF fm _ _ Az Ac Al Ak RH Br Sr). assert (As := rs_ap nn HF fm _ _ Az Ac Al Ak RH Br Sr). apply pair_snd in O.
  unfold core1, log2_1, elog1. unfold coreR. destruct b.
  - change (log2tab_bits (xw X)) with (lbits true (xw X)). change (log2tab (xw X)) with (ltab true (xw X)). rewrite Ez, Ek, Ec, El, Ew. assert (D : xf X = F32 \/ xf X = F64) by (destruct (xf X); auto). destruct D as [D|D].
    + replace (fw (xf X) =? 32) with true by (rewrite D; reflexivity). replace (roundE true (xf X) hi) with (log2B32 (xf X) (rhoZ true (xf X)) (mlZ true) hi) in * by (rewrite D; reflexivity).
      destruct (log2_32_ap nn fm ic k Al Ak O Ar) as [m A]. exists m. replace (hornerR (lpolyR true (xf X))) with (hornerR [val (xf X) (cf log2coff_f32 3); val (xf X) (cf log2coff_f32 2); val (xf X) (cf log2coff_f32 1); val (xf X) (cf log2coff_f32 0)]%R) by (rewrite D; reflexivity). exact A.
    + replace (fw (xf X) =? 32) with false by (rewrite D; reflexivity). replace (roundE true (xf X) hi) with (log2B64 (xf X) (rhoZ true (xf X)) (mlZ true) hi) in * by (rewrite D; reflexivity).
      destruct (log2_64_ap nn fm ic k Al Ak O Ar) as [m A]. exists m. cbv zeta in A.
      replace (hornerR (lpolyR true (xf X))) with (hornerR [val (xf X) (c_invln2h (fw (xf X))) + val (xf X) (c_invln2l (fw (xf X))); val (xf X) (cf log2coff_f64 0); val (xf X) (cf log2coff_f64 1); val (xf X) (cf log2coff_f64 2); val (xf X) (cf log2coff_f64 3); val (xf X) (cf log2coff_f64 4); val (xf X) (cf log2coff_f64 5)]%R) by (rewrite D; reflexivity). exact A.
  - change (logtab_bits (xw X)) with (lbits false (xw X)). change (logtab (xw X)) with (ltab false (xw X)). rewrite Ez, Ek, Ec, El, Ew. assert (D : xf X = F32 \/ xf X = F64) by (destruct (xf X); auto). destruct D as [D|D].
    + replace (fw (xf X) =? 32) with true by (rewrite D; reflexivity). replace (roundE false (xf X) hi) with (logB32 (xf X) (rhoZ false (xf X)) (mlZ false) hi) in * by (rewrite D; reflexivity).
      destruct (log32_ap nn fm ic k Al Ak O As) as [m A]. exists m. replace (hornerR (lpolyR false (xf X))) with (hornerR [1; val (xf X) (cf logcoff_f32 2); val (xf X) (cf logcoff_f32 1); val (xf X) (cf logcoff_f32 0)]%R) by (rewrite <- (one_val (xf X)), D; reflexivity). exact A.
    + replace (fw (xf X) =? 32) with false by (rewrite D; reflexivity). replace (roundE false (xf X) hi) with (logB64 (xf X) (rhoZ false (xf X)) (mlZ false) hi) in * by (rewrite D; reflexivity).
      destruct (log64_ap nn fm ic k Al Ak O Ar) as [m A]. exists m.
      replace (hornerR (lpolyR false (xf X))) with (hornerR [1; val (xf X) (cf logcoff_f64 0); val (xf X) (cf logcoff_f64 1); val (xf X) (cf logcoff_f64 2); val (xf X) (cf logcoff_f64 3); val (xf X) (cf logcoff_f64 4)]%R) by (rewrite <- (one_val (xf X)), D; reflexivity). exact A.
Qed.
End Rnd.
Theorem core_acc nn X fm b x : xty_ok X -> is_int (xT X) = false -> 2 ^ mw (xf X) <= x < finf (fw (xf X)) -> exists k,
  word (fw (xf X)) (core1 (X := X) b fm nn x) /\ isfin (xf X) (core1 (X := X) b fm nn x) = true /\
  (Rabs (val (xf X) (core1 (X := X) b fm nn x) - ln (mval (xf X) x) / sclR b) <= IZR (AZ b (xf X) + SZ b (xf X) * Z.abs k) * UU)%R /\ (Rabs (IZR k) * ln 2 <= Rabs (ln (mval (xf X) x)) + 4 / 9)%R.
Proof.
  intros HX HF Hx. pose proof (w_fw HX HF) as Ew.
  assert (Hb : 0 <= lbits b (fw (xf X)) <= mw (xf X)) by (destruct b, (xf X); vm_compute; split; discriminate).
  destruct (red_ok HX HF Hb Hx) as (k & z & Ex & Ez & Rz & Hk & (Wk & Fk & Vk) & i & Ei & Hi & Bz).
  destruct (scl_ok b) as (KI & K0 & K2).
  destruct (bin_ok (xf X) (ltab b (fw (xf X))) (rhoZ b (xf X)) (tolZ b (xf X)) (mlZ b) (tab_all b (xf X)) Hi K0 KI (proj1 Hb) Bz) as (Ac & Al & Az & Pc & Pz & Br & Bt & Bl).
  remember (nth (Z.to_nat (2 * i)) (ltab b (fw (xf X))) 0) as ic eqn:Eic. remember (nth (Z.to_nat (2 * i + 1)) (ltab b (fw (xf X))) 0) as lc eqn:Elc.
  remember (lcvt (X := X) (lk (X := X) x)) as kf eqn:Ekf.
  assert (Ak0 : ap (xf X) kf (IZR k) 0 (Z.abs k * S140)).
  { rewrite <- Vk. apply ap_exact; auto. { unfold S140. clear. lia. } rewrite Vk, <- abs_IZR, mult_IZR, Rmult_assoc. pose proof UU_inv as I. fold S140 in I. rewrite I, Rmult_1_r. lra. }
  destruct (@tot_ok b (xf X) (Z.abs k) (conj (Z.abs_nonneg k) Hk)) as (hi & Lh & O & T).
  assert (Ak : ap (xf X) kf (IZR k) 0 (hi * S140)) by (eapply ap_wk; [exact Ak0|apply Z.le_refl|unfold S140; clear -Lh; lia]). clear Ak0.
  destruct (@rnd_part nn X HX HF fm z ic lc kf hi k Az Ac Ak b x Al Br O Ez (eq_sym Ekf)) as [m A].
  { unfold linvc, lut1. rewrite Ew, Ei. symmetry. exact Eic. } { unfold llogc, lut1. rewrite Ew, Ei. symmetry. exact Elc. }
  pose proof (rho_small _ _ _ Br) as Hr16. pose proof (ln1p_small _ Hr16) as Hl15. pose proof UU_pos as UP.
  remember (mval (xf X) z * val (xf X) ic - 1)%R as r eqn:Er. assert (Pr : (0 < 1 + r)%R) by (apply Rabs_le_inv in Hr16; lra).
  assert (RP := real_part k (lnc b (xf X)) (val (xf X) lc) (sclR b) (r * hornerR (lpolyR b (xf X)) r) Ex Pz Pc Er Pr (dl_ok b (xf X)) Bt (poly_acc _ _ _ Br)).
  exists k. destruct A as (Wc & Fc & Ec & _). split; [exact Wc|]. split; [exact Fc|]. fold (coreR (xf X) b k (val (xf X) lc) r) in RP. split.
  - assert (SP : (0 < sclR b)%R) by lra. assert (HT : (IZR (totE b (xf X) hi) * UU <= IZR (AZ b (xf X) + SZ b (xf X) * Z.abs k) * UU)%R) by (apply Rmult_le_compat_r; [lra|apply IZR_le; exact T]).
    eapply Rle_trans; [|exact HT]. unfold totE. rewrite plus_IZR, mult_IZR, !plus_IZR, mult_IZR.
    assert (D0 : (0 <= IZR (dlZ b (xf X)))%R) by (apply (IZR_le 0); destruct b, (xf X); discriminate).
    assert (Hki : (Rabs (IZR k) * (IZR (dlZ b (xf X)) * UU) <= IZR hi * IZR (dlZ b (xf X)) * UU)%R).
    { rewrite Rmult_assoc. apply Rmult_le_compat_r; [apply Rmult_le_pos; lra|]. rewrite <- abs_IZR. apply IZR_le. exact Lh. }
    assert (HQ : (Rabs (coreR (xf X) b k (val (xf X) lc) r - ln (mval (xf X) x) / sclR b) <= 2 * ((IZR hi * IZR (dlZ b (xf X)) + IZR (tolZ b (xf X)) + IZR (peZ b (xf X))) * UU))%R).
    { replace (coreR (xf X) b k (val (xf X) lc) r - ln (mval (xf X) x) / sclR b)%R with ((sclR b * coreR (xf X) b k (val (xf X) lc) r - ln (mval (xf X) x)) * / sclR b)%R by (field; lra).
      rewrite Rabs_mult, (Rabs_pos_eq (/ sclR b)) by (apply Rlt_le, Rinv_0_lt_compat; lra). assert (/ sclR b <= 2)%R. { rewrite <- (Rinv_inv 2). apply Rinv_le_contravar; lra. }
      rewrite Rmult_comm. apply Rmult_le_compat; [apply Rlt_le, Rinv_0_lt_compat; lra|apply Rabs_pos|assumption|]. eapply Rle_trans; [exact RP|]. lra. }
    replace (val (xf X) (core1 (X := X) b fm nn x) - ln (mval (xf X) x) / sclR b)%R with ((val (xf X) (core1 (X := X) b fm nn x) - coreR (xf X) b k (val (xf X) lc) r) + (coreR (xf X) b k (val (xf X) lc) r - ln (mval (xf X) x) / sclR b))%R by ring.
    eapply Rle_trans; [apply Rabs_triang|]. lra.
  - assert (Hln : (0 < ln 2)%R) by (rewrite <- ln_1; apply ln_increasing; lra).
    assert (E : ln (mval (xf X) x) = (IZR k * ln 2 - ln (val (xf X) ic) + ln (1 + r))%R).
    { assert (L2 : ln (bpow radix2 k) = (IZR k * ln 2)%R). { rewrite bpow_powerRZ. change (IZR radix2) with 2%R. rewrite powerRZ_Rpower by lra. unfold Rpower. apply ln_exp. }
      rewrite Er. replace (1 + (mval (xf X) z * val (xf X) ic - 1))%R with (mval (xf X) z * val (xf X) ic)%R by ring. rewrite Ex, !ln_mult, L2; try lra. apply bpow_gt_0. }
    rewrite <- (Rabs_pos_eq (ln 2)) by lra. rewrite <- Rabs_mult.
    replace (IZR k * ln 2)%R with (ln (mval (xf X) x) + (ln (val (xf X) ic) + - ln (1 + r)))%R by (rewrite E; ring).
    eapply Rle_trans; [apply Rabs_triang|]. apply Rplus_le_compat_l. eapply Rle_trans; [apply Rabs_triang|]. rewrite Rabs_Ropp. lra.
Qed.
Close Scope Z_scope.
