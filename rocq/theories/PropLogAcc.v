(** C53: how accurate log and log2 are on normal numbers. *)
From Coq Require Import ZifyBool ZifyNat Reals Lra.
From Flocq Require Import Core IEEE754.BinarySingleNaN IEEE754.Binary.
From Verif Require Import Base Cxx Spec X86Vec X86 X86Lemmas X86Proofs X86Ops Fp FpLemmas FpOps FMath FMathProofs FLane FFields FManip FManipLanes PropX86 PropFloat PropManip Round RoundProofs RoundSem FArith Cvt CvtProofs PropCvt LogbProofs PropArith FCvt PropHypot PropIeee FRoute FRouteProofs LogTab Log LogProofs PropLog
  FErr IvPoly TrigTab PropTrig PropSin SinPoly LnBound LogRed LogAcc LogNum LogTot LogFin.
Set Implicit Arguments.
Open Scope Z_scope.

(** *** Specification ([within] is that of PropSin) *)
(** the distance between 1 and the next number *)
Definition epsilon (f : fmt) : R := match f with F32 => bpow radix2 (-23) | F64 => bpow radix2 (-52) end.
(** the smallest normal number *)
Definition min_normal (f : fmt) : R := match f with F32 => bpow radix2 (-126) | F64 => bpow radix2 (-1022) end.
(** the error allowed for a logarithm whose true value is [l]: 6 epsilon, scaled by 1 + |l| *)
Definition log_err (f : fmt) (l : R) : R := (6 * epsilon f * (1 + Rabs l))%R.

(** *** Proofs *)
Lemma unit_eps f : (IZR (match f with F32 => 2 ^ 116 | F64 => 2 ^ 87 end) * UU = epsilon f / 2)%R.
Proof.
  pose proof UU_inv as I. destruct f; unfold epsilon.
  - replace (2 ^ 140) with (2 ^ 116 * 16777216) in I by reflexivity. rewrite mult_IZR in I. change (bpow radix2 (-23)) with (/ 8388608)%R. apply Rmult_eq_reg_r with 16777216%R; lra.
  - replace (2 ^ 140) with (2 ^ 87 * 9007199254740992) in I by reflexivity. rewrite mult_IZR in I. change (bpow radix2 (-52)) with (/ 4503599627370496)%R. apply Rmult_eq_reg_r with 9007199254740992%R; lra.
Qed.
Lemma eps_pos f : (0 < epsilon f)%R. Proof. destruct f; apply bpow_gt_0. Qed.
Lemma ln2_lb : (69 / 100 <= ln 2)%R.
Proof.
  pose proof ln2_ok as [A _]. eapply Rle_trans; [|exact A]. pose proof UU_inv as I. pose proof UU_pos as UP.
  assert (H : (69 * (IZR (2 ^ 140) * UU) <= 100 * (IZR (fst ln2I) * UU))%R). { rewrite <- !Rmult_assoc, <- !mult_IZR. apply Rmult_le_compat_r; [lra|]. apply IZR_le. vm_compute. discriminate. } lra.
Qed.
Lemma ln2_lt1 : (ln 2 < 1)%R.
Proof.
  pose proof ln2_ok as [_ A]. eapply Rle_lt_trans; [exact A|]. pose proof UU_inv as I. pose proof UU_pos as UP. rewrite <- I. apply Rmult_lt_compat_r; [lra|]. apply IZR_lt. vm_compute. reflexivity.
Qed.
Section P.
Context {X : xty} (HX : xty_ok X) (HF : is_int (xT X) = false) (fm pn he : bool) (nn : nans).
Local Notation f := (xf X).
Lemma normal_bits x : word (fw f) x -> isfin f x = true -> (min_normal f <= val f x)%R -> 2 ^ mw f <= x < finf (fw f) /\ val f x = mval f x /\ (0 < val f x)%R.
Proof.
  intros Hx Fx B. assert (P : (0 < val f x)%R) by (eapply Rlt_le_trans; [|exact B]; destruct f; apply bpow_gt_0). destruct (@norm_bits f x Hx Fx) as [A V]; [|tauto]. 
  eapply Rle_trans; [|exact B]. destruct f; apply bpow_le; cbv; discriminate.
Qed.
Lemma one_case x : word (fw f) x -> isfin f x = true -> feq (xw X) x (fone (xw X)) = true -> val f x = 1%R.
Proof. intros Hx Fx Q. rewrite (w_fw HX HF) in Q. destruct (@fone_ok f) as (W1 & F1 & V1). apply (@feq_val X) in Q; auto. congruence. Qed.
Lemma zero_within e : (0 <= e)%R -> within f e (ln 1) 0 /\ within f e (ln 1 / ln 2) 0.
Proof.
  intros He. destruct (@zero_ok f) as (_ & F0 & V0). rewrite ln_1. unfold within. rewrite V0. split; (split; [exact F0|]).
  - rewrite Rminus_0_r, Rabs_R0. exact He.
  - unfold Rdiv. rewrite Rmult_0_l, Rminus_0_r, Rabs_R0. exact He.
Qed.
Lemma log_err_pos l : (0 <= log_err f l)%R.
Proof. unfold log_err. pose proof (eps_pos f). pose proof (Rabs_pos l). repeat apply Rmult_le_pos; lra. Qed.
(** log *)
Lemma log_lane x : word (fw f) x -> isfin f x = true -> (min_normal f <= val f x)%R -> within f (log_err f (ln (val f x))) (ln (val f x)) (log1 (X := X) fm pn he nn x).
Proof.
  intros Hx Fx B. destruct (normal_bits Hx Fx B) as (A & V & P). unfold log1. rewrite (logex_pos HX HF) by auto. destruct (feq (xw X) x (fone (xw X))) eqn:Q.
  { rewrite (one_case Hx Fx Q). apply zero_within, log_err_pos. }
  rewrite (lnorm_id HX HF nn A). destruct (@core_acc nn X fm false x HX HF A) as (k & _ & Fc & E & K). split; [exact Fc|]. rewrite V. cbn [core1 sclR] in E. unfold core1 in Fc.
  replace (ln (mval f x) / 1)%R with (ln (mval f x)) in E by field. eapply Rle_trans; [exact E|]. pose proof ln2_lb as L2. pose proof (unit_eps f) as U. pose proof (eps_pos f) as EP.
  unfold log_err. set (l := Rabs (ln (mval f x))) in *. rewrite plus_IZR, mult_IZR, abs_IZR, Rmult_plus_distr_r.
  assert (KB : (Rabs (IZR k) <= 100 / 69 * (l + 4 / 9))%R). { pose proof (Rabs_pos (IZR k)). assert (Rabs (IZR k) * (69 / 100) <= Rabs (IZR k) * ln 2)%R by (apply Rmult_le_compat_l; lra). lra. }
  assert (A1 : (IZR (AZ false f) * UU <= 7 * (epsilon f / 2))%R). { rewrite <- U, <- Rmult_assoc, <- mult_IZR. apply Rmult_le_compat_r; [pose proof UU_pos; lra|]. apply IZR_le. destruct f; cbv; discriminate. }
  assert (S1 : (IZR (SZ false f) * UU = 4 * (epsilon f / 2))%R). { rewrite <- U, <- Rmult_assoc, <- mult_IZR. destruct f; reflexivity. }
  replace (IZR (SZ false f) * Rabs (IZR k) * UU)%R with (4 * (epsilon f / 2) * Rabs (IZR k))%R by (rewrite <- S1; ring).
  assert (4 * (epsilon f / 2) * Rabs (IZR k) <= 4 * (epsilon f / 2) * (100 / 69 * (l + 4 / 9)))%R by (apply Rmult_le_compat_l; lra).
  assert (L0 : (0 <= l)%R) by apply Rabs_pos. assert (0 <= epsilon f * l)%R by (apply Rmult_le_pos; lra). nra.
Qed.
Lemma log2_bound x k : (Rabs (IZR k) * ln 2 <= Rabs (ln (mval f x)) + 4 / 9)%R -> (Rabs (IZR k) <= Rabs (ln (mval f x) / ln 2) + 65 / 100)%R.
Proof.
  intros K. pose proof ln2_lb as L2. unfold Rdiv at 1. rewrite Rabs_mult, (Rabs_pos_eq (/ ln 2)) by (apply Rlt_le, Rinv_0_lt_compat; lra).
  apply Rmult_le_reg_r with (ln 2); [lra|]. eapply Rle_trans; [exact K|]. rewrite Rmult_plus_distr_r, Rmult_assoc, Rinv_l, Rmult_1_r by lra. lra.
Qed.
Lemma log2_lane x : word (fw f) x -> isfin f x = true -> (min_normal f <= val f x)%R ->
  let l := (ln (val f x) / ln 2)%R in within f (match f with F32 => log_err F32 l | F64 => bpow radix2 (-37) * (1 + Rabs l) end) l (log2l (X := X) fm pn he nn x).
Proof.
  intros Hx Fx B l. destruct (normal_bits Hx Fx B) as (A & V & P). unfold log2l. rewrite (logex_pos HX HF) by auto. destruct (feq (xw X) x (fone (xw X))) eqn:Q.
  { unfold l. rewrite (one_case Hx Fx Q). apply zero_within. pose proof log_err_pos as LP. destruct f; [apply LP|]. apply Rmult_le_pos; [apply bpow_ge_0|]. pose proof (Rabs_pos (ln 1 / ln 2)). lra. }
  rewrite (lnorm_id HX HF nn A). destruct (@core_acc nn X fm true x HX HF A) as (k & _ & Fc & E & K). split; [exact Fc|]. unfold l. rewrite V. clear l. cbn [sclR] in E. unfold core1 in E.
  apply log2_bound in K. eapply Rle_trans; [exact E|]. clear E. set (l := Rabs (ln (mval f x) / ln 2)) in *. rewrite plus_IZR, mult_IZR, abs_IZR, Rmult_plus_distr_r. pose proof (unit_eps f) as U. pose proof (eps_pos f) as EP.
  assert (L0 : (0 <= l)%R) by apply Rabs_pos. unfold log_err. fold l. clearbody l. pose proof UU_pos as UP. pose proof UU_inv as I. destruct f; cbn [AZ SZ].
  - rewrite !mult_IZR. assert (IZR 4 * IZR (2 ^ 116) * Rabs (IZR k) * UU = 4 * (epsilon F32 / 2) * Rabs (IZR k))%R by (rewrite <- U; ring). assert (IZR 8 * IZR (2 ^ 116) * UU = 8 * (epsilon F32 / 2))%R by (rewrite <- U; ring).
    assert (4 * (epsilon F32 / 2) * Rabs (IZR k) <= 4 * (epsilon F32 / 2) * (l + 65 / 100))%R by (apply Rmult_le_compat_l; lra). nra.
  - change (bpow radix2 (-37)) with (/ 137438953472)%R. replace (2 ^ 140) with (2 ^ 92 * 281474976710656) in I by reflexivity. replace (6 * 2 ^ 100) with (1536 * 2 ^ 92) by reflexivity. rewrite mult_IZR in *.
    assert (UE : (IZR (2 ^ 92) * UU = / 281474976710656)%R) by (apply Rmult_eq_reg_r with 281474976710656%R; lra).
    replace (IZR (2 ^ 92) * Rabs (IZR k) * UU)%R with (/ 281474976710656 * Rabs (IZR k))%R by (rewrite <- UE; ring). replace (IZR 1536 * IZR (2 ^ 92) * UU)%R with (1536 * / 281474976710656)%R by (rewrite <- UE; ring). lra.
Qed.
End P.
(** *** log: 6 epsilon for every normal number, both formats, every build *)
Theorem C53_log_accuracy_partial : forall nn X fm pn he a, xty_ok X -> is_int (xT X) = false -> shaped X a ->
  each1 X a (x_log X fm pn he nn a) (fun x y => isfin (xf X) x = true -> (min_normal (xf X) <= val (xf X) x)%R -> within (xf X) (log_err (xf X) (ln (val (xf X) x))) (ln (val (xf X) x)) y).
Proof. intros nn X fm pn he a HX HF Ha. eapply (lw_each HX HF _ (k_log_lw HX HF fm pn he nn)); auto. intros v Hv Fv Bv. now apply log_lane. Qed.
Print Assumptions C53_log_accuracy_partial.
(** *** log2: 6 epsilon for every normal float *)
Theorem C53_log2_float_accuracy_partial : forall nn X fm pn he a, xty_ok X -> is_int (xT X) = false -> esz (xT X) = 4%nat -> shaped X a ->
  each1 X a (x_log2 X fm pn he nn a) (fun x y => isfin F32 x = true -> (min_normal F32 <= val F32 x)%R -> within F32 (log_err F32 (ln (val F32 x) / ln 2)) (ln (val F32 x) / ln 2) y).
Proof.
  intros nn X fm pn he a HX HF E4 Ha. destruct (xT_float HX HF) as [(_ & Ef & _) | (Q & _)]; [|congruence]. eapply (lw_each HX HF _ (k_log2_lw HX HF fm pn he nn)); auto. intros v Hv Fv Bv. rewrite <- Ef in Fv, Bv.
  pose proof (@log2_lane X HX HF fm pn he nn v Hv Fv Bv) as R. rewrite Ef in R. exact R.
Qed.
Print Assumptions C53_log2_float_accuracy_partial.
(** *** log2 of a double: only 2^-37 (a table for another interval split is used, see the refutation below) *)
Theorem C53_log2_double_accuracy_partial : forall nn X fm pn he a, xty_ok X -> is_int (xT X) = false -> esz (xT X) = 8%nat -> shaped X a ->
  each1 X a (x_log2 X fm pn he nn a) (fun x y => isfin F64 x = true -> (min_normal F64 <= val F64 x)%R -> within F64 (bpow radix2 (-37) * (1 + Rabs (ln (val F64 x) / ln 2))) (ln (val F64 x) / ln 2) y).
Proof.
  intros nn X fm pn he a HX HF E8 Ha. destruct (xT_float HX HF) as [(Q & _) | (_ & Ef & _)]; [congruence|]. eapply (lw_each HX HF _ (k_log2_lw HX HF fm pn he nn)); auto. intros v Hv Fv Bv. rewrite <- Ef in Fv, Bv.
  pose proof (@log2_lane X HX HF fm pn he nn v Hv Fv Bv) as R. rewrite Ef in R. exact R.
Qed.
Print Assumptions C53_log2_double_accuracy_partial.
(** the error is really that large: for x = 0x3ff0cf4fd28f8ae6 (about 1.05) it exceeds 2^-40, while log2(x) is 0.07; 6 epsilon would be 2^-49 *)
Lemma log2_bad r : r = 4589797202891192057 \/ r = 4589797202891192052 -> (bpow radix2 (-40) < Rabs (val F64 r - ln (val F64 0x3ff0cf4fd28f8ae6) / ln 2))%R.
Proof.
  intros Hr. set (c := 0x3ff0cf4fd28f8ae6).
  assert (D : iv (isubc (imul (fst ln2I) (snd ln2I) (ipt (zc F64 r))) (lnI 60 (zc F64 c))) (ln 2 * val F64 r - ln (val F64 c))).
  { apply isubc_ok. { apply imul_ok; [vm_compute; discriminate|apply ln2_ok|apply ipt_ok; destruct Hr as [-> | ->]; vm_compute; reflexivity]. }
    rewrite zc_ok by (vm_compute; reflexivity). apply lnI_ok. split; vm_compute; discriminate. }
  destruct D as [D _]. assert (L : (IZR (2 ^ 100 + 1) * UU <= ln 2 * val F64 r - ln (val F64 c))%R).
  { eapply Rle_trans; [|exact D]. apply Rmult_le_compat_r; [pose proof UU_pos; lra|]. apply IZR_le. destruct Hr as [-> | ->]; vm_compute; discriminate. }
  pose proof UU_inv as I. replace (2 ^ 140) with (2 ^ 100 * 1099511627776) in I by reflexivity. rewrite plus_IZR in L. rewrite mult_IZR in I. pose proof UU_pos as UP.
  assert (U : (IZR (2 ^ 100) * UU = bpow radix2 (-40))%R). { change (bpow radix2 (-40)) with (/ 1099511627776)%R. apply Rmult_eq_reg_r with 1099511627776%R; lra. }
  assert (L' : (bpow radix2 (-40) < ln 2 * val F64 r - ln (val F64 c))%R) by lra. pose proof (bpow_gt_0 radix2 (-40)) as BP. pose proof ln2_lb as L2. assert (L1 : (ln 2 < 1)%R) by exact ln2_lt1.
  set (v := val F64 r) in *. set (lc := ln (val F64 c)) in *. assert (Q : (v - lc / ln 2 = (ln 2 * v - lc) / ln 2)%R) by (field; lra). rewrite Q, Rabs_pos_eq.
  - apply Rmult_lt_reg_r with (ln 2); [lra|]. unfold Rdiv. rewrite Rmult_assoc, Rinv_l, Rmult_1_r by lra. nra.
  - apply Rmult_le_pos; [lra|]. apply Rlt_le, Rinv_0_lt_compat. lra.
Qed.
Theorem C53_log2_double_accuracy_refuted : forall nn X fm pn he, xty_ok X -> is_int (xT X) = false -> esz (xT X) = 8%nat ->
  exists a, shaped X a /\ each1 X a (x_log2 X fm pn he nn a) (fun x y => isfin F64 x = true /\ (min_normal F64 <= val F64 x)%R /\ isfin F64 y = true /\ (bpow radix2 (-40) < Rabs (val F64 y - ln (val F64 x) / ln 2))%R) /\
  Forall (fun x => x = 0x3ff0cf4fd28f8ae6) (elems X a).
Proof.
  intros nn X fm pn he HX HF E8. destruct (xT_float HX HF) as [(Q & _) | (_ & Ef & Ew)]; [congruence|]. set (c := 0x3ff0cf4fd28f8ae6).
  assert (Wc : word (fw F64) c) by (unfold word, c; cbn [fw]; lia). assert (Fc : isfin F64 c = true) by (vm_compute; reflexivity).
  assert (Bc : (min_normal F64 <= val F64 c)%R).
  { unfold c. rewrite (@val_cst F64 0x3ff0cf4fd28f8ae6 0x10cf4fd28f8ae6 (-52)) by (try reflexivity; unfold word; cbn [fw]; lia). apply Rle_trans with (bpow radix2 (-52)); [apply bpow_le; lia|]. rewrite <- (Rmult_1_l (bpow radix2 (-52))) at 1. apply Rmult_le_compat_r; [apply bpow_ge_0|]. apply (IZR_le 1). lia. }
  apply (const_each HX HF _ (k_log2_lw HX HF fm pn he nn)). { rewrite Ef. exact Wc. } split; [exact Fc|]. split; [exact Bc|].
  assert (P : (0 < val F64 c)%R) by (eapply Rlt_le_trans; [apply (bpow_gt_0 radix2)|exact Bc]).
  assert (R : log2l (X := X) fm pn he nn c = if fm then 4589797202891192052 else 4589797202891192057).
  { unfold log2l. rewrite (logex_pos HX HF); rewrite ?Ef; auto. replace (feq (xw X) _ _) with false by (rewrite Ew; reflexivity).
    replace (lnorm1 (X := X) nn c) with c. 2:{ unfold lnorm1, gtl. rewrite Ew. destruct (l32 X); vm_compute; reflexivity. }
    unfold log2_1, linvc, llogc, lz, lk, lcvt, lidx, ltmp, fmadd1, fmsub1. rewrite Ew, Ef. clear. destruct nn, fm; vm_compute; reflexivity. }
  rewrite R. split; [destruct fm; vm_compute; reflexivity|]. apply log2_bad. destruct fm; auto.
Qed.
Print Assumptions C53_log2_double_accuracy_refuted.
(** log(10), log2(10) in float, every hypothesis met *)
Example C53_accuracy_case : isfin F32 0x41200000 = true /\ (min_normal F32 <= val F32 0x41200000)%R /\ x_log (f4 sse2) false true true nans0 [[0x41200000; 0x3f800000; 0x00800000; 0x7f7fffff]]%Z = Ok [[0x40135d8d; 0; 0xc2aeac50; 0x42b17218]]%Z.
Proof.
  split; [vm_compute; reflexivity|]. split; [|vm_compute; reflexivity]. rewrite (@val_cst F32 0x41200000 10485760 (-20)) by (try (unfold word; cbn [fw]; lia); vm_compute; reflexivity).
  unfold min_normal. apply Rle_trans with (bpow radix2 0); [apply bpow_le; lia|]. change (bpow radix2 0) with 1%R. change (bpow radix2 (-20)) with (/ 1048576)%R. lra.
Qed.
Close Scope Z_scope.
