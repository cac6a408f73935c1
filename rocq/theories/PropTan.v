(** C57: how accurate tan is. *)
From Coq Require Import ZifyBool ZifyNat Reals Lra.
From Flocq Require Import Core IEEE754.BinarySingleNaN IEEE754.Binary.
From Verif Require Import Base Cxx Spec X86Vec X86 X86Lemmas X86Proofs X86Masks X86Ops X86Shift Fp FpLemmas FpOps FKern FMath FMathProofs FLane FFields FManip FManipLanes LogbProofs
  PropX86 PropFloat PropManip Cvt CvtProofs PropCvt Round RoundProofs RoundLanes RoundSem PropRound FArith PropArith FCvt Hypot HypotProofs HypotSem PropHypot PropIeee LogTab Log LogProofs PropLog TrigTab Trig TrigProofs PropTrig FErr IvPoly PiBound SinPoly SinEval SinRed SinAcc PropSin PropTrigSpec.
Set Implicit Arguments.
Open Scope Z_scope.

(** *** Specification *)
(** the error of sin and cos (C54, C55) *)
Definition sincos_error (f : fmt) (fm : bool) (x : R) : R := match f with F32 => float_err fm x | F64 => double_err end.
(** what it becomes in their quotient *)
Definition tan_err (f : fmt) (fm : bool) (x : R) : R := (3 * sincos_error f fm x * (1 + Rabs (tan x)) * (1 + Rabs (tan x)))%R.
(** the arguments whose sine and cosine are known to be accurate *)
Definition sincos_dom (X : xty) (x : R) : Prop := (Rabs x <= bpow radix2 (match xf X with F32 => 22 | F64 => if octants_convert X then 22 else 15 end))%R.

(** *** Proofs *)
Lemma pio32_val f : word (fw f) (c_pio32 (fw f)) /\ isfin f (c_pio32 (fw f)) = true /\ val f (c_pio32 (fw f)) = rnd f (PI / 32).
Proof.
  split; [destruct f; unfold word; cbn; lia|]. split; [destruct f; reflexivity|].
  destruct (pi_n f) as (n & e & (He & Hn) & V1 & V2 & He' & Hr).
  assert (E : forall d : Z, bpow radix2 (e - 5) = (bpow radix2 e * / 32)%R) by (intros _; unfold Z.sub; rewrite bpow_plus; reflexivity).
  assert (R : rnd f (PI / 32) = (IZR n * bpow radix2 (e - 5))%R). { apply rnd_unique; auto. rewrite (E 0). apply Rabs_def2 in Hr. apply Rabs_def1; lra. }
  rewrite R, (E 0). assert (V : (val f (pi_w f) = 32 * val f (c_pio32 (fw f)))%R).
  { clear. destruct f.
    - rewrite (@val_cst F32 (pi_w F32) 13176795 (-22)), (@val_cst F32 (c_pio32 (fw F32)) 13176795 (-27)) by (try reflexivity; unfold word; cbn; lia). cbn. lra.
    - rewrite (@val_cst F64 (pi_w F64) 7074237752028440 (-51)), (@val_cst F64 (c_pio32 (fw F64)) 7074237752028440 (-56)) by (try reflexivity; unfold word; cbn; lia). cbn. lra. }
  rewrite V1 in V. lra.
Qed.

(** |x| <= |tan x| *)
Lemma tan_ge x : (0 <= x <= 1)%R -> (x <= tan x)%R.
Proof.
  intros Hx. pose proof PI_RGT_0 as P0. pose proof pi4_bounds as P4.
  destruct (sin_bound x 0) as [S _]; [lra|lra|]. destruct (cos_bound x 0) as [_ C]; [lra|lra|].
  assert (SA : sin_approx x (2 * 0 + 1) = (x - x * x * x / 6)%R) by (unfold sin_approx, sin_term; cbn; field).
  assert (CA : cos_approx x (2 * (0 + 1)) = (1 - x * x / 2 + x * x * x * x / 24)%R) by (unfold cos_approx, cos_term; cbn; field).
  rewrite SA in S. rewrite CA in C. assert (C0 : (0 < cos x)%R) by (apply cos_gt_0; lra).
  unfold tan. apply Rmult_le_reg_r with (cos x); auto. unfold Rdiv. rewrite Rmult_assoc, Rinv_l, Rmult_1_r by lra.
  apply Rle_trans with (x * (1 - x * x / 2 + x * x * x * x / 24))%R; [apply Rmult_le_compat_l; lra|]. eapply Rle_trans; [|exact S].
  assert (0 <= x * x * x)%R by (assert (0 <= x * x)%R by nra; nra). assert (x * x <= 1)%R by nra. assert (x * x * x * (x * x) <= x * x * x)%R by nra. nra.
Qed.
Lemma abs_tan x : (Rabs x <= 1)%R -> (Rabs x <= Rabs (tan x))%R.
Proof.
  intros H. unfold Rabs in H. destruct (Rcase_abs x) as [L|L].
  - assert (T := @tan_ge (- x)%R ltac:(lra)). rewrite tan_neg in T. rewrite (Rabs_left x), (Rabs_left1 (tan x)) by lra. lra.
  - assert (T := @tan_ge x ltac:(lra)). rewrite (Rabs_pos_eq x), (Rabs_pos_eq (tan x)) by lra. lra.
Qed.

Definition tanm : Z := 2 ^ 140 * 99 / 1000.
Definition tanP (f : fmt) : Z * Z * bool := let '(e, m, o) := pbound f (Emul (f := f) 0 tanm 0 tanm) (Mmul (f := f) tanm tanm) (tancof (fw f)) in (e, m, o && over f (cd (tanm * tanm))).
Lemma tanP_ok f : exists e m, tanP f = (e, m, true) /\ 40 * m <= 2 ^ 140.
Proof. exists (fst (fst (tanP f))), (snd (fst (tanP f))). destruct f; (split; [vm_compute; reflexivity|vm_compute; discriminate]). Qed.
Lemma tanm_ok r : (Rabs r <= 982 / 10000)%R -> (Rabs r <= IZR tanm * UU)%R.
Proof.
  intros H. eapply Rle_trans; [exact H|]. pose proof UU_pos as UP. pose proof UU_inv as I.
  assert (Q : (IZR (2 ^ 140) * 982 <= IZR tanm * 10000)%R). { rewrite <- !mult_IZR. apply IZR_le. vm_compute. discriminate. }
  apply Rmult_le_compat_r with (r := UU) in Q; [|lra]. lra.
Qed.
Lemma pio32_le f : (0 < val f (c_pio32 (fw f)) <= 982 / 10000)%R.
Proof. destruct f; [rewrite (@val_cst F32 _ 13176795 (-27)) by (try reflexivity; unfold word; cbn; lia)|rewrite (@val_cst F64 _ 7074237752028440 (-56)) by (try reflexivity; unfold word; cbn; lia)]; cbn; lra. Qed.
Section T.
Context {X : xty} (HX : xty_ok X) (HF : is_int (xT X) = false) (fm he : bool) (nn : nans).
Local Notation f := (xf X).
Local Notation W := (fw f).
Lemma tan_small x lt : word W x -> isfin f x = true -> (Rabs (val f x) < rnd f (PI / 32))%R ->
  isfin f (tan1 (X := X) fm he nn lt x) = true /\ (Rabs (val f (tan1 (X := X) fm he nn lt x)) <= Rabs (val f x) / 16)%R.
Proof.
  intros Hx Fx Bx. destruct (pio32_val f) as (W3 & F3 & V3). pose proof (pio32_le f) as V3'. rewrite <- V3 in Bx.
  destruct (@fin_path X HX HF he nn x Hx Fx ltac:(lra)) as (O & D). destruct (mag_val HF Hx Fx) as (Wa & Fa & Va).
  unfold tan1. cbv zeta. rewrite O, D, (xw_fw HX HF). rewrite (flt_val Wa W3 Fa F3), Va, Rlt_bool_true by lra.
  assert (Bm := @tanm_ok (val f x) ltac:(lra)). assert (Tm : 0 <= tanm) by (vm_compute; discriminate). assert (Ax := ap_exact _ Hx Fx Tm Bm).
  destruct (tanP_ok f) as (e & m & HB & Hm). unfold tanP in HB. destruct (pbound _ _ _ _) as [[e' m'] o] eqn:Q. apply pair_equal_spec in HB. destruct HB as [HB HO]. apply pair_equal_spec in HB. destruct HB as [-> ->]. apply andb_prop in HO. destruct HO as [-> O1].
  assert (Az := ap_mul nn Ax Ax O1). assert (Ap := ap_polevl fm nn _ Az Q). set (p := polevl1 (X := X) fm nn (fmul nn f x x) (tancof (fw f))) in *. clearbody p. clear Q.
  destruct Ap as (Wp & Fp & _ & Mp & _ & Pm).
  assert (Bp : (Rabs (val f p) <= / 40)%R).
  { eapply Rle_trans; [exact Mp|]. pose proof UU_pos as UP. pose proof UU_inv as I. apply IZR_le in Hm. rewrite mult_IZR in Hm. apply Rmult_le_compat_r with (r := UU) in Hm; lra. }
  destruct (mul_ok nn Wp Hx) as (_ & S1 & _). specialize (S1 Fp Fx). destruct S1 as [S1 _].
  assert (R0 : (Rabs (val f p * val f x) <= Rabs (val f x) / 40)%R). { rewrite Rabs_mult. pose proof (Rabs_pos (val f x)). unfold Rdiv. rewrite Rmult_comm. apply Rmult_le_compat_l; lra. }
  assert (R1 : (Rabs (rnd f (val f p * val f x)) <= Rabs (val f x) / 20)%R).
  { pose proof (@rnd_near f (val f p * val f x) 0 (generic_format_0 _ _)) as N. rewrite Rminus_0_l, Rabs_Ropp in N.
    replace (rnd f (val f p * val f x)) with ((rnd f (val f p * val f x) - val f p * val f x) + val f p * val f x)%R by ring. eapply Rle_trans; [apply Rabs_triang|]. lra. }
  unfold correct_round in S1. rewrite Rlt_bool_true in S1. { destruct S1 as [F V]. split; auto. rewrite V. pose proof (Rabs_pos (val f x)). lra. }
  eapply Rle_lt_trans; [exact R1|]. apply Rlt_le_trans with 1%R; [lra|]. change 1%R with (bpow radix2 0). apply bpow_le. clear. destruct f; discriminate.
Qed.
Lemma quot_err s c s' c' e : (s * s + c * c = 1)%R -> (0 < e)%R -> (2 * e <= Rabs c)%R -> (Rabs (s' - s) <= e)%R -> (Rabs (c' - c) <= e)%R ->
  c' <> 0%R /\ (Rabs (s' / c') <= 2 / e)%R /\ (Rabs (s' / c' - s / c) <= 2 * e * (1 + Rabs (s / c)) * (1 + Rabs (s / c)))%R.
Proof.
  intros SC He Hc Hs Hc'. assert (C0 : c <> 0%R) by (intros ->; rewrite Rabs_R0 in Hc; lra).
  assert (PC : (0 < Rabs c)%R) by (apply Rabs_pos_lt; auto).
  assert (C1 : (Rabs c / 2 <= Rabs c')%R). { replace c with (c' - (c' - c))%R at 1 by ring. assert (Rabs c <= Rabs c' + Rabs (c' - c))%R. { replace c with (c' + - (c' - c))%R at 1 by ring. eapply Rle_trans; [apply Rabs_triang|]. rewrite Rabs_Ropp. lra. } replace (c' - (c' - c))%R with c by ring. lra. }
  assert (C0' : c' <> 0%R) by (intros ->; rewrite Rabs_R0 in C1; lra). assert (PC' : (0 < Rabs c')%R) by (apply Rabs_pos_lt; auto). split; auto.
  pose proof (Rabs_pos s) as S0. assert (S1 : (Rabs s <= 1)%R) by (apply Rabs_le; nra). assert (Cc1 : (Rabs c <= 1)%R) by (apply Rabs_le; nra).
  assert (S2 : (Rabs s' <= 1 + e)%R). { replace s' with (s + (s' - s))%R by ring. eapply Rle_trans; [apply Rabs_triang|]. lra. }
  split.
  - unfold Rdiv. rewrite Rabs_mult, Rabs_inv. apply Rmult_le_reg_r with (Rabs c'); auto. rewrite Rmult_assoc, Rinv_l, Rmult_1_r by lra.
    apply Rle_trans with (2 * / e * e)%R; [rewrite Rmult_assoc, Rinv_l by lra; lra|]. apply Rmult_le_compat_l; [|lra]. assert (0 < / e)%R by (apply Rinv_0_lt_compat; lra). lra.
  - set (t := Rabs (s / c)). assert (T1 : (Rabs s = t * Rabs c)%R). { unfold t. rewrite <- Rabs_mult. f_equal. field. auto. }
    assert (T0 : (0 <= t)%R) by apply Rabs_pos.
    assert (U : (1 <= (1 + t) * Rabs c)%R). { assert (1 <= Rabs s + Rabs c)%R; [|lra]. assert (Rabs s * Rabs s = s * s)%R by (rewrite <- Rabs_mult; apply Rabs_pos_eq; nra). assert (Rabs c * Rabs c = c * c)%R by (rewrite <- Rabs_mult; apply Rabs_pos_eq; nra). nra. }
    replace (s' / c' - s / c)%R with (((s' - s) * c - s * (c' - c)) / (c' * c))%R by (field; auto). unfold Rdiv. rewrite Rabs_mult, Rabs_inv.
    assert (N : (Rabs ((s' - s) * c - s * (c' - c)) <= e * ((1 + t) * Rabs c))%R).
    { unfold Rminus at 1. eapply Rle_trans; [apply Rabs_triang|]. rewrite Rabs_Ropp, !Rabs_mult, T1. pose proof (Rabs_pos (s' - s)). pose proof (Rabs_pos (c' - c)). nra. }
    assert (Pcc : (0 < Rabs (c' * c))%R) by (rewrite Rabs_mult; nra). apply Rmult_le_reg_r with (Rabs (c' * c)); auto. rewrite Rmult_assoc, Rinv_l, Rmult_1_r by lra.
    eapply Rle_trans; [exact N|]. rewrite Rabs_mult.
    apply Rle_trans with (2 * e * (1 + t) * (1 + t) * (Rabs c / 2 * Rabs c))%R; [|apply Rmult_le_compat_l; [assert (0 <= (1 + t) * (1 + t))%R by nra; nra|apply Rmult_le_compat_r; lra]].
    assert (0 <= e * ((1 + t) * Rabs c))%R by (assert (0 <= (1 + t) * Rabs c)%R by nra; nra). nra.
Qed.
Lemma err_small x : (Rabs x <= 4194304)%R -> (bpow radix2 (3 - prec f) <= sincos_error f fm x <= / 2)%R.
Proof.
  intros H. pose proof (Rabs_pos x). destruct f; unfold sincos_error; [change (prec F32) with 24|change (prec F64) with 53].
  - unfold float_err. change (bpow radix2 (3 - 24)) with (/ 2097152)%R. change (bpow radix2 (-20)) with (/ 1048576)%R. change (bpow radix2 (-24)) with (/ 16777216)%R. destruct fm; lra.
  - unfold double_err. change (bpow radix2 (-50)) with (/ 1125899906842624)%R. change (bpow radix2 (3 - 53)) with (/ 1125899906842624)%R. lra.
Qed.
Lemma tan_big x lt : word W x -> isfin f x = true -> (rnd f (PI / 32) <= Rabs (val f x))%R -> sincos_dom X (val f x) -> (2 * sincos_error f fm (val f x) <= Rabs (cos (val f x)))%R ->
  within f (tan_err f fm (val f x)) (tan (val f x)) (tan1 (X := X) fm he nn lt x).
Proof.
  intros Hx Fx Lx Dx Cx. destruct (pio32_val f) as (W3 & F3 & V3). rewrite <- V3 in Lx.
  assert (B : (Rabs (val f x) <= 4194304)%R /\ (f = F32 \/ good64 (X := X) = true \/ (Rabs (val f x) <= 32768)%R)).
  { unfold sincos_dom, octants_convert in Dx. fold (good64 (X := X)) in Dx. change (bpow radix2 22) with 4194304%R in Dx. change (bpow radix2 15) with 32768%R in Dx.
    clear -Dx. set (v := Rabs (val f x)) in *. clearbody v. revert Dx. destruct f; intros Dx; [split; auto|]. revert Dx. unfold good64. set (g := if is256 X then _ else _). clearbody g. destruct g; intros Dx; [split; auto|]. change (bpow radix2 15) with 32768%R in Dx. split; [lra|auto]. }
  destruct B as [B G]. destruct (@fin_path X HX HF he nn x Hx Fx B) as (O & D). destruct (mag_val HF Hx Fx) as (Wa & Fa & Va).
  destruct (@sincos_err X HX HF fm he nn x (fun v => v) (fun v => v) Hx Fx B G) as ([FS ES] & [FC EC]). unfold sin1, cos1 in FS, ES, FC, EC. rewrite O, D in FS, ES, FC, EC.
  unfold tan1. cbv zeta. rewrite O, D, (xw_fw HX HF). rewrite (flt_val Wa W3 Fa F3), Va, Rlt_bool_false by lra.
  fold (sincos_error f fm (val f x)) in ES, EC. destruct (err_small _ B) as [E1 E2]. set (e := sincos_error f fm (val f x)) in *.
  assert (Ws : word W (esin1 (X := X) fm nn (sx1 (X := X) x) (fmag W x))) by (apply esin_w; auto; apply sx_w; auto).
  assert (Wc : word W (ecos1 (X := X) fm nn (fmag W x))) by (apply ecos_w; auto).
  set (s := esin1 _ _ _ _) in *. set (c := ecos1 _ _ _) in *. clearbody s c.
  assert (P0 : (0 < e)%R) by (eapply Rlt_le_trans; [apply bpow_gt_0|exact E1]).
  pose proof (sin2_cos2 (val f x)) as SC. unfold Rsqr in SC.
  destruct (quot_err _ _ SC P0 Cx ES EC) as (N0 & Q1 & Q2). fold (tan (val f x)) in Q2. set (t := Rabs (tan (val f x))) in *.
  assert (Nz : ~ iszero f c). { intros Z. apply N0. apply (iszero_mag Wc) in Z. now apply (val_zero f Wc FC). }
  destruct (div_ok nn Ws Wc) as (_ & S1 & _). specialize (S1 FS FC Nz). destruct S1 as [S1 _].
  set (q := (val f s / val f c)%R) in *. assert (RR := rnd_rel f q).
  assert (T0 : (0 <= t)%R) by apply Rabs_pos.
  assert (U1 : (bpow radix2 (- prec f) <= e / 8)%R). { replace (3 - prec f) with (3 + - prec f) in E1 by lia. rewrite bpow_plus in E1. change (bpow radix2 3) with 8%R in E1. lra. }
  assert (U2 : (bpow radix2 (emin f - 1) <= e / 8)%R). { eapply Rle_trans; [|exact U1]. apply bpow_le. clear. destruct f; discriminate. }
  assert (Q3 : (Rabs q <= t + 2 * e * (1 + t) * (1 + t))%R). { replace q with (tan (val f x) + (q - tan (val f x)))%R by ring. eapply Rle_trans; [apply Rabs_triang|]. fold t. lra. }
  assert (T2 : (1 <= (1 + t) * (1 + t))%R) by nra. rewrite !Rmult_assoc in *. set (tt := ((1 + t) * (1 + t))%R) in *.
  assert (Q4 : (Rabs q <= 2 * tt)%R). { assert (t <= tt)%R by (unfold tt; nra). assert (e * tt <= / 2 * tt)%R by (apply Rmult_le_compat_r; lra). lra. }
  pose proof (Rabs_pos q) as QP.
  assert (R1 : (Rabs (rnd f q - q) <= e * tt)%R).
  { eapply Rle_trans; [exact RR|]. assert (bpow radix2 (- prec f) * Rabs q <= e / 8 * (2 * tt))%R by (apply Rmult_le_compat; try lra; apply bpow_ge_0). assert (e * 1 <= e * tt)%R by (apply Rmult_le_compat_l; lra). lra. }
  assert (R2 : (Rabs (rnd f q) < bpow radix2 (emax f))%R).
  { replace (rnd f q) with (q + (rnd f q - q))%R by ring. eapply Rle_lt_trans; [apply Rabs_triang|].
    assert (bpow radix2 (- prec f) * Rabs q <= 1 * Rabs q)%R by (apply Rmult_le_compat_r; lra).
    assert (/ e <= bpow radix2 (prec f - 3))%R. { replace (prec f - 3) with (- (3 - prec f)) by lia. rewrite bpow_opp. apply Rinv_le; auto. apply bpow_gt_0. }
    unfold Rdiv in Q1. assert (1 <= bpow radix2 (prec f - 3))%R by (change 1%R with (bpow radix2 0); apply bpow_le; clear; destruct f; discriminate).
    apply Rle_lt_trans with (8 * bpow radix2 (prec f - 3))%R; [lra|]. change 8%R with (bpow radix2 3). rewrite <- bpow_plus. apply bpow_lt. clear. destruct f; reflexivity. }
  unfold correct_round in S1. rewrite Rlt_bool_true in S1 by auto. destruct S1 as [F V]. split; auto. rewrite V. unfold tan_err. fold e t. rewrite !Rmult_assoc. fold tt.
  replace (rnd f q - tan (val f x))%R with ((rnd f q - q) + (q - tan (val f x)))%R by ring. eapply Rle_trans; [apply Rabs_triang|]. lra.
Qed.
End T.
Open Scope R_scope.
(** tan is accurate where |x| is at least the number nearest to pi/32: within 3 e (1 + |tan x|)^2, e being the error of sin and cos, whenever the cosine is at least 2 e.
    Missing for the full property: |x| < pi/32, where the code is wrong (next theorem). *)
Theorem C57_tan_accuracy_partial : forall nn X fm he lm a, xty_ok X -> is_int (xT X) = false -> libm_ok X lm -> shaped X a -> let f := xf X in
  each1 X a (x_tan X fm he nn lm a) (fun x y => isfin f x = true -> rnd f (PI / 32) <= Rabs (val f x) -> sincos_dom X (val f x) -> 2 * sincos_error f fm (val f x) <= Rabs (cos (val f x)) ->
    within f (tan_err f fm (val f x)) (tan (val f x)) y).
Proof. intros nn X fm he lm a HX HF Hl Ha f. apply e_tan; auto. intros x Hx Fx Lx Dx Cx. apply tan_big; auto. Qed.
Print Assumptions C57_tan_accuracy_partial.
(** Every finite x nearer to 0 than that comes back as a number no larger than |x|/16: the relative error is above 93 percent for every one of them, in every build. *)
Theorem C57_tan_small_refuted : forall nn X fm he lm a, xty_ok X -> is_int (xT X) = false -> libm_ok X lm -> shaped X a -> let f := xf X in
  each1 X a (x_tan X fm he nn lm a) (fun x y => isfin f x = true -> Rabs (val f x) < rnd f (PI / 32) ->
    isfin f y = true /\ Rabs (val f y) <= Rabs (val f x) / 16 /\ 15 / 16 * Rabs (val f x) <= Rabs (val f y - tan (val f x))).
Proof.
  intros nn X fm he lm a HX HF Hl Ha f. apply e_tan; auto. intros x Hx Fx Lx. destruct (@tan_small X HX HF fm he nn x lm Hx Fx Lx) as [F B]. fold f in F, B. split; auto. split; auto.
  destruct (pio32_val f) as (_ & _ & V3). pose proof (pio32_le f) as P. rewrite V3 in P.
  assert (T := @abs_tan (val f x) ltac:(lra)). set (y := tan1 _ _ _ _ _) in *. set (t := tan (val f x)) in *. assert (Rabs t <= Rabs (val f y) + Rabs (val f y - t)); [|lra].
  replace t with (val f y + - (val f y - t)) at 1 by ring. eapply Rle_trans; [apply Rabs_triang|]. rewrite Rabs_Ropp. lra.
Qed.
Print Assumptions C57_tan_small_refuted.
Open Scope Z_scope.
(** 1, -2.5, 100, 1/16 with fused multiply-add: tan 100 is accurate, tan (1/16) comes back as 0.0013 *)
Example C57_case : xty_ok (f4 haswell) /\ is_int (xT (f4 haswell)) = false /\ shaped (f4 haswell) [[0x3f800000; 0xc0200000; 0x42c80000; 0x3d800000]]%Z /\ libm_ok (f4 haswell) (fun x => x) /\
  within F32 (tan_err F32 true 1) (tan 1) 0x3fc75923 /\ (Rabs (val F32 0x3d800000) < rnd F32 (PI / 32))%R.
Proof.
  assert (S : shaped (f4 haswell) [[0x3f800000; 0xc0200000; 0x42c80000; 0x3d800000]]%Z) by shp. split; [xok|]. split; [reflexivity|]. split; [exact S|]. split; [intros v Hv; exact Hv|].
  destruct (pio32_val F32) as (_ & _ & V3). assert (V3' := @val_cst F32 (c_pio32 (fw F32)) 13176795 (-27) ltac:(unfold word; cbn; lia) eq_refl eq_refl eq_refl).
  split.
  - destruct (@C57_tan_accuracy_partial nans0 (f4 haswell) true false (fun v => v) _ ltac:(xok) eq_refl ltac:(intros v Hv; exact Hv) S) as (u & E & _ & H).
    assert (E2 : x_tan (f4 haswell) true false nans0 (fun v => v) [[0x3f800000; 0xc0200000; 0x42c80000; 0x3d800000]]%Z = Ok [[0x3fc75923; 1061108956; 3205911463; 985046715]]%Z) by (vm_compute; reflexivity).
    rewrite E2 in E. injection E as <-. destruct (H 0%nat 0x3f800000 eq_refl) as (y & Ey & Q). cbn in Ey. injection Ey as <-.
    assert (V : val F32 0x3f800000 = 1%R). { rewrite (@val_cst F32 0x3f800000 8388608 (-23)) by (try reflexivity; unfold word; cbn [fw]; lia). change (bpow radix2 (-23)) with (/ 8388608)%R. field. }
    change (xf (f4 haswell)) with F32 in Q. rewrite V in Q. apply Q; [reflexivity| | |].
    + rewrite <- V3, V3', Rabs_pos_eq by lra. cbn. lra.
    + unfold sincos_dom. change (xf (f4 haswell)) with F32. cbv iota. rewrite Rabs_pos_eq by lra. change (bpow radix2 22) with 4194304%R. lra.
    + unfold sincos_error, float_err. change (bpow radix2 (-20)) with (/ 1048576)%R. cbv iota.
      destruct (cos_bound 1 0) as [C _]; [pose proof pi4_bounds; lra|pose proof pi4_bounds; lra|]. assert (CA : cos_approx 1 (2 * 0 + 1) = (/ 2)%R) by (unfold cos_approx, cos_term; cbn; field).
      rewrite CA in C. rewrite Rabs_pos_eq by lra. lra.
  - rewrite <- V3, V3'. rewrite (@val_cst F32 0x3d800000 8388608 (-27)) by (try reflexivity; unfold word; cbn [fw]; lia). rewrite Rabs_pos_eq; cbn; lra.
Qed.
Close Scope Z_scope.
