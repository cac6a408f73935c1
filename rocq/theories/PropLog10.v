(** C53: how accurate log10 is. *)
From Coq Require Import ZifyBool ZifyNat Reals Lra.
From Flocq Require Import Core IEEE754.BinarySingleNaN IEEE754.Binary.
From Verif Require Import Base Cxx Spec X86Vec X86 X86Lemmas X86Proofs X86Ops Fp FpLemmas FpOps FMath FMathProofs FLane FFields FManip FManipLanes FScalbn PropX86 PropFloat PropManip Round RoundProofs RoundSem FArith Cvt CvtProofs PropCvt LogbProofs PropArith FCvt PropHypot PropIeee FRoute FRouteProofs LogTab Log LogProofs PropLog
  FErr IvPoly TrigTab PropTrig PropSin SinPoly LnBound LogRed LogAcc LogNum LogTot LogFin PropLogAcc Log10Acc.
Set Implicit Arguments.
Open Scope Z_scope.
Lemma ln_mono x y : (0 < x)%R -> (x <= y)%R -> (ln x <= ln y)%R.
Proof. intros H [L|E]; [left; now apply ln_increasing|right; now rewrite E]. Qed.
Section P.
Context {X : xty} (HX : xty_ok X) (HF : is_int (xT X) = false) (fm pn he : bool) (nn : nans).
Local Notation f := (xf X).
Lemma log10_lane x : word (fw f) x -> isfin f x = true -> (0 < val f x)%R -> log10_dom f (val f x) ->
  within f (log_err f (ln (val f x) / ln 10)) (ln (val f x) / ln 10) (log10_1 (X := X) fm pn he nn x).
Proof.
  intros Hx Fx P D. unfold log10_1. rewrite (logex_pos HX HF) by auto. pose proof ln10_bounds as [T1 T2]. pose proof ln2_lb as L2. pose proof ln2_lt1 as L21. destruct (feq (xw X) x (fone (xw X))) eqn:Q.
  { rewrite (one_case HX HF Hx Fx Q), ln_1. unfold Rdiv. rewrite Rmult_0_l. destruct (@zero_ok f) as (_ & F0 & V0). split; [exact F0|]. rewrite V0, Rminus_0_r, Rabs_R0. apply log_err_pos. }
  destruct (split10 HX HF nn Hx Fx P D) as (k & Hk & Ry & (Y1 & Y2) & Ex & Wk & Fk & Vk). cbv zeta in Wk, Fk, Vk. unfold ev10.
  set (iy := iy10 (X := X) nn x) in *. set (yk := lcvt (X := X) _) in *. pose proof UU_pos as UP. pose proof UU_inv as I. fold S140 in I.
  destruct (@core_acc nn X fm false iy HX HF Ry) as (j & Wc & Fc & Ec & Kc). cbn [sclR] in Ec. unfold core1 in Wc, Fc, Ec. set (L := elog1 (X := X) fm nn iy) in *. replace (ln (mval f iy) / 1)%R with (ln (mval f iy)) in Ec by field.
  assert (Ly : (Rabs (ln (mval f iy)) <= ln 2)%R).
  { apply Rabs_le. split; [|apply ln_mono; lra]. rewrite <- (Rinv_inv 2), ln_Rinv, Ropp_involutive by lra. apply ln_mono; lra. }
  assert (Hj : Z.abs j <= 1). { destruct (Z_le_gt_dec (Z.abs j) 1) as [|G]; auto. exfalso. assert (2 <= Rabs (IZR j))%R by (rewrite <- abs_IZR; apply (IZR_le 2); lia). assert (2 * ln 2 <= Rabs (IZR j) * ln 2)%R by (apply Rmult_le_compat_r; lra). lra. }
  assert (AL : ap f L (ln (mval f iy)) (e10 f) S140).
  { assert (E1 : (Rabs (val f L - ln (mval f iy)) <= IZR (e10 f) * UU)%R). { eapply Rle_trans; [exact Ec|]. apply Rmult_le_compat_r; [lra|]. apply IZR_le. unfold e10. assert (0 <= SZ false f) by (destruct f; discriminate). nia. }
    split; auto. split; auto. split; auto. split; [|destruct f; split; discriminate]. rewrite I. assert (E2 : (IZR (e10 f) * UU <= / 100)%R).
    { apply Rmult_le_reg_l with 100%R; [lra|]. rewrite Rinv_r by lra. rewrite <- Rmult_assoc, <- mult_IZR. rewrite <- I. apply Rmult_le_compat_r; [lra|]. apply IZR_le. destruct f; vm_compute; discriminate. }
    assert (LU : (ln 2 <= 7 / 10)%R). { pose proof ln2_ok as [_ A]. eapply Rle_trans; [exact A|]. apply Rmult_le_reg_l with 10%R; [lra|]. rewrite <- Rmult_assoc, <- mult_IZR. replace (10 * (7 / 10))%R with (IZR 7 * (IZR S140 * UU))%R by (rewrite I; lra). rewrite <- Rmult_assoc, <- mult_IZR. apply Rmult_le_compat_r; [lra|]. apply IZR_le. vm_compute. discriminate. }
    replace (val f L) with ((val f L - ln (mval f iy)) + ln (mval f iy))%R by ring. eapply Rle_trans; [apply Rabs_triang|]. lra. }
  destruct (@tot10_ok f (Z.abs k) ltac:(lia)) as (hi & Lh & O & T).
  assert (AK : ap f yk (IZR k) 0 (hi * S140)).
  { rewrite <- Vk. apply ap_exact; auto. { apply Z.mul_nonneg_nonneg; [lia|discriminate]. } rewrite Vk, mult_IZR, Rmult_assoc, I, Rmult_1_r, <- abs_IZR. apply IZR_le. exact Lh. }
  destruct (b10_ok nn X fm k AL AK (pair_snd _ O)) as [m A]. rewrite <- (w_fw HX HF) in A. destruct A as (_ & FR & ER & _). split; [exact FR|]. rewrite (w_fw HX HF) in *.
  set (R := val f (fmadd1 nn fm _ _ _)) in *. clearbody R. clear FR. 
  assert (Lx : ln (val f x) = (IZR k * ln 2 + ln (mval f iy))%R).
  { rewrite Ex, ln_mult by (try apply bpow_gt_0; lra). f_equal. rewrite bpow_powerRZ. change (IZR radix2) with 2%R. rewrite powerRZ_Rpower by lra. unfold Rpower. apply ln_exp. }
  assert (RP : (Rabs ((IZR k * val f (c_log10_2h (fw f)) + (IZR k * val f (c_log10_2l (fw f)) + val f (c_ivln10 (fw f)) * ln (mval f iy))) - ln (val f x) / ln 10) <= (IZR hi * IZR (d10 f) + IZR (i10 f)) * UU)%R).
  { set (h := val f (c_log10_2h (fw f))). set (l := val f (c_log10_2l (fw f))). set (c := val f (c_ivln10 (fw f))). set (n := ln (mval f iy)) in *.
    replace (IZR k * h + (IZR k * l + c * n) - ln (val f x) / ln 10)%R with ((IZR k * (ln 10 * (h + l) - ln 2) + n * (ln 10 * c - 1)) * / ln 10)%R by (rewrite Lx; field; lra).
    pose proof (d10_ok f) as D1. pose proof (i10_ok f) as D2. fold h l in D1. fold c in D2. rewrite Rabs_mult, (Rabs_pos_eq (/ ln 10)) by (apply Rlt_le, Rinv_0_lt_compat; lra).
    assert (IL : (0 <= / ln 10 <= 1)%R). { split; [apply Rlt_le, Rinv_0_lt_compat; lra|]. rewrite <- Rinv_1. apply Rinv_le_contravar; lra. }
    assert (N1 : (Rabs (IZR k * (ln 10 * (h + l) - ln 2)) <= IZR hi * (IZR (d10 f) * UU))%R). { rewrite Rabs_mult. apply Rmult_le_compat; try apply Rabs_pos; auto. rewrite <- abs_IZR. now apply IZR_le. }
    assert (N2 : (Rabs (n * (ln 10 * c - 1)) <= 1 * (IZR (i10 f) * UU))%R). { rewrite Rabs_mult. apply Rmult_le_compat; try apply Rabs_pos; auto. lra. }
    set (u := (IZR k * (ln 10 * (h + l) - ln 2) + n * (ln 10 * c - 1))%R). assert (N3 : (Rabs u <= (IZR hi * IZR (d10 f) + IZR (i10 f)) * UU)%R) by (unfold u; eapply Rle_trans; [apply Rabs_triang|lra]).
    pose proof (Rabs_pos u). nra. }
  assert (KB : (Rabs (IZR k) <= 334 / 100 * Rabs (ln (val f x) / ln 10) + 1)%R).
  { assert (Q1 : (Rabs (IZR k) * ln 2 <= Rabs (ln (val f x)) + ln 2)%R). { rewrite <- (Rabs_pos_eq (ln 2)) at 1 by lra. rewrite <- Rabs_mult. replace (IZR k * ln 2)%R with (ln (val f x) + - ln (mval f iy))%R by (rewrite Lx; ring). eapply Rle_trans; [apply Rabs_triang|]. rewrite Rabs_Ropp. lra. }
    unfold Rdiv at 2. rewrite Rabs_mult, (Rabs_pos_eq (/ ln 10)) by (apply Rlt_le, Rinv_0_lt_compat; lra). set (a := Rabs (ln (val f x))) in *. assert (A0 : (0 <= a)%R) by apply Rabs_pos.
    apply Rmult_le_reg_r with (ln 2); [lra|]. eapply Rle_trans; [exact Q1|]. assert (a <= 334 / 100 * (a * / ln 10) * ln 2)%R; [|lra].
    replace (334 / 100 * (a * / ln 10) * ln 2)%R with (a * ((334 / 100 * ln 2) * / ln 10))%R by ring. rewrite <- (Rmult_1_r a) at 1. apply Rmult_le_compat_l; auto. rewrite <- (Rinv_r (ln 10)) by lra. apply Rmult_le_compat_r; [apply Rlt_le, Rinv_0_lt_compat; lra|exact T2]. }
  assert (TT : (Rabs (R - ln (val f x) / ln 10) <= IZR (tot10 f hi) * UU)%R).
  { unfold tot10. rewrite !plus_IZR, mult_IZR. replace (R - ln (val f x) / ln 10)%R with ((R - (IZR k * val f (c_log10_2h (fw f)) + (IZR k * val f (c_log10_2l (fw f)) + val f (c_ivln10 (fw f)) * ln (mval f iy)))) + ((IZR k * val f (c_log10_2h (fw f)) + (IZR k * val f (c_log10_2l (fw f)) + val f (c_ivln10 (fw f)) * ln (mval f iy))) - ln (val f x) / ln 10))%R by ring.
    eapply Rle_trans; [apply Rabs_triang|]. lra. }
  eapply Rle_trans; [exact TT|]. eapply Rle_trans with (IZR (A10 f + S10 f * Z.abs k) * UU)%R; [apply Rmult_le_compat_r; [lra|apply IZR_le; exact T]|].
  set (l := Rabs (ln (val f x) / ln 10)) in *. assert (L0 : (0 <= l)%R) by apply Rabs_pos. unfold log_err. fold l. clearbody l. pose proof (unit_eps f) as U. pose proof (eps_pos f) as EP. rewrite plus_IZR, mult_IZR, abs_IZR.
  assert (A1 : (IZR (A10 f) * UU = 8 * (epsilon f / 2))%R) by (rewrite <- U, <- Rmult_assoc, <- mult_IZR; destruct f; reflexivity).
  assert (S1 : (IZR (S10 f) * UU = 2 * (epsilon f / 2))%R) by (rewrite <- U, <- Rmult_assoc, <- mult_IZR; destruct f; reflexivity).
  rewrite Rmult_plus_distr_r, A1. replace (IZR (S10 f) * Rabs (IZR k) * UU)%R with (2 * (epsilon f / 2) * Rabs (IZR k))%R by (rewrite <- S1; ring).
  assert (2 * (epsilon f / 2) * Rabs (IZR k) <= 2 * (epsilon f / 2) * (334 / 100 * l + 1))%R by (apply Rmult_le_compat_l; lra). assert (0 <= epsilon f * l)%R by (apply Rmult_le_pos; lra). lra.
Qed.
End P.
(** every positive float, subnormals included, on every build *)
Theorem C53_log10_float_accuracy : forall nn X fm pn he a, xty_ok X -> is_int (xT X) = false -> esz (xT X) = 4%nat -> shaped X a ->
  each1 X a (x_log10 X fm pn he nn a) (fun x y => isfin F32 x = true -> (0 < val F32 x)%R -> within F32 (log_err F32 (ln (val F32 x) / ln 10)) (ln (val F32 x) / ln 10) y).
Proof.
  intros nn X fm pn he a HX HF E4 Ha. destruct (xT_float HX HF) as [(_ & Ef & _) | (Q & _)]; [|congruence]. eapply (lw_each HX HF _ (k_log10_lw HX HF fm pn he nn)); auto. intros v Hv Fv Pv. rewrite <- Ef in Fv, Pv.
  assert (D : log10_dom (xf X) (val (xf X) v)) by (rewrite Ef; exact Logic.I). pose proof (@log10_lane X HX HF fm pn he nn v Hv Fv Pv D) as R. rewrite Ef in R. exact R.
Qed.
Print Assumptions C53_log10_float_accuracy.
(** every positive double below 2^970; from 2^970 on the result is wrong (C53_log10_double_refuted) *)
Theorem C53_log10_double_accuracy_partial : forall nn X fm pn he a, xty_ok X -> is_int (xT X) = false -> esz (xT X) = 8%nat -> shaped X a ->
  each1 X a (x_log10 X fm pn he nn a) (fun x y => isfin F64 x = true -> (0 < val F64 x < bpow radix2 970)%R -> within F64 (log_err F64 (ln (val F64 x) / ln 10)) (ln (val F64 x) / ln 10) y).
Proof.
  intros nn X fm pn he a HX HF E8 Ha. destruct (xT_float HX HF) as [(Q & _) | (_ & Ef & _)]; [congruence|]. eapply (lw_each HX HF _ (k_log10_lw HX HF fm pn he nn)); auto. intros v Hv Fv Pv. rewrite <- Ef in Fv, Pv.
  assert (D : log10_dom (xf X) (val (xf X) v)) by (rewrite Ef; rewrite Ef in Pv; exact (proj2 Pv)). pose proof (@log10_lane X HX HF fm pn he nn v Hv Fv (proj1 Pv) D) as R. rewrite Ef in R. exact R.
Qed.
Print Assumptions C53_log10_double_accuracy_partial.
(** log10 of 10, 1, the smallest and the largest float *)
Example C53_log10_accuracy_case : isfin F32 1 = true /\ (0 < val F32 1)%R /\ x_log10 (f4 sse2) false true true nans0 [[0x41200000; 0x3f800000; 1; 0x7f7fffff]]%Z = Ok [[0x3f800000; 0; 0xc23369f4; 0x421a209b]]%Z.
Proof. split; [vm_compute; reflexivity|]. split; [|vm_compute; reflexivity]. rewrite (@val_cst F32 1 1 (-149)) by (try (unfold word; cbn [fw]; lia); vm_compute; reflexivity). pose proof (bpow_gt_0 radix2 (-149)). lra. Qed.
Close Scope Z_scope.
