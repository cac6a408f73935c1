(** log1p: forward error analysis of log(u) + c/u with u = rnd(1 + x) (C67). *)
From Coq Require Import ZifyBool ZifyNat Reals Lra.
From Flocq Require Import Core Relative Sterbenz IEEE754.BinarySingleNaN IEEE754.Binary.
From Verif Require Import Base Cxx Spec X86Vec X86 X86Lemmas X86Proofs X86Ops Fp FpLemmas FpOps FMath FMathProofs FLane FFields FManip FManipLanes PropX86 PropFloat PropManip Round RoundProofs RoundSem FArith Cvt CvtProofs PropCvt LogbProofs PropArith FCvt PropHypot PropIeee FRoute FRouteProofs LogTab Log LogProofs PropLog
  FErr IvPoly TrigTab PropTrig PropSin SinPoly LnBound LogRed LogAcc LogNum LogTot LogFin PropLogAcc ArcKern ArcAtan HypNum HypSplit HypAcc.
Set Implicit Arguments.
Open Scope Z_scope.
Local Notation bp := (bpow radix2).

Section A.
Context (f : fmt) (nn : nans).
Local Notation fx := (SpecFloat.fexp (prec f) (emax f)).
Local Notation mu := (bp (- prec f)).
Local Notation good y := (word (fw f) y /\ isfin f y = true).
Lemma mu_small : (0 < mu <= / 1048576)%R.
Proof. split; [apply bpow_gt_0|]. change (/ 1048576)%R with (bp (-20)). apply bpow_le. clear. destruct f; cbn; lia. Qed.
(** x + 1 does not overflow *)
Lemma one_plus x : good x -> (-1 < val f x)%R -> good (fadd nn f x (fone (fw f))) /\ val f (fadd nn f x (fone (fw f))) = rnd f (val f x + 1).
Proof.
  intros [W F] Hx. destruct (@fone_ok f) as (W1 & F1 & V1). destruct (@add_ok nn f x (fone (fw f)) W W1) as (_ & C & _). destruct (C F F1) as [C1 _]. clear C. rewrite V1 in C1.
  assert (Q : isfin f (fadd nn f x (fone (fw f))) = true /\ val f (fadd nn f x (fone (fw f))) = rnd f (val f x + 1)); [|split; [split; [apply fadd_word|apply Q]|apply Q]].
  destruct (Rle_or_lt (val f x) (bp (emax f - 3))) as [L|L].
  - apply (@cr_lt f _ _ (emax f - 2) C1); [clear; destruct f; cbn; lia|]. assert (1 <= bp (emax f - 3))%R by (change 1%R with (bp 0); apply bpow_le; clear; destruct f; cbn; lia).
    replace (emax f - 2) with (1 + (emax f - 3)) by lia. rewrite bpow_plus. change (bp 1) with 2%R. apply Rabs_le. lra.
  - unfold correct_round in C1. assert (B0 : (0 < bp (emax f - 3))%R) by apply bpow_gt_0. rewrite Rlt_bool_true in C1; auto.
    assert (VE : Valid_exp fx) by (apply fexp_correct, Hprec). assert (ME : Monotone_exp fx) by (clear; intros a b H; unfold SpecFloat.fexp; lia).
    assert (U : (4 <= ulp radix2 fx (val f x))%R). { apply Rle_trans with (ulp radix2 fx (bp (emax f - 3))). { rewrite ulp_bpow. change 4%R with (bp 2). apply bpow_le. clear. destruct f; cbn; lia. } apply ulp_le_pos; auto; lra. }
    assert (R1 : (rnd f (val f x + 1) <= val f x)%R). { unfold rnd. apply round_N_le_midp; auto; [apply fmt_val|]. rewrite succ_eq_pos by lra. lra. }
    assert (R0 : (0 <= rnd f (val f x + 1))%R). { unfold rnd. apply round_ge_generic; auto; try typeclasses eauto; [apply generic_format_0|lra]. }
    rewrite Rabs_right by lra. eapply Rle_lt_trans; [exact R1|]. pose proof (@val_lt_emax f x) as V. rewrite Rabs_right in V by lra. exact V.
Qed.
(** numbers above -1 are at least -1 + 2^-prec *)
Lemma above x : (-1 < val f x)%R -> (mu <= 1 + val f x)%R.
Proof.
  intros H. assert (VE : Valid_exp fx) by (apply fexp_correct, Hprec). destruct (@fone_ok f) as (_ & _ & V1). pose proof (@fmt_val f (fone (fw f))) as G1. rewrite V1 in G1.
  assert (P : (- val f x <= pred radix2 fx 1)%R). { apply pred_ge_gt; auto; [apply generic_format_opp, fmt_val|lra]. }
  change 1%R with (bp 0) in P at 1. rewrite pred_bpow in P. change (bp 0) with 1%R in P. replace (fx 0) with (- prec f) in P; [lra|]. clear. destruct f; reflexivity.
Qed.
Lemma exact_low x : (-1 < val f x <= - / 2)%R -> rnd f (val f x + 1) = (val f x + 1)%R.
Proof.
  intros H. apply rnd_id. assert (VE : Valid_exp fx) by (apply fexp_correct, Hprec). assert (ME : Monotone_exp fx) by (clear; intros a b K; unfold SpecFloat.fexp; lia). destruct (@fone_ok f) as (_ & _ & V1). pose proof (@fmt_val f (fone (fw f))) as G1. rewrite V1 in G1.
  replace (val f x + 1)%R with (1 - - val f x)%R by ring. apply sterbenz; auto; [apply generic_format_opp, fmt_val|lra].
Qed.
(** the error of u and the size of the correction *)
Lemma corr x u : good x -> (-1 < val f x)%R -> good u -> val f u = rnd f (val f x + 1) ->
  let S := (1 + val f x)%R in
  (Rabs (val f u - S) <= 101 / 100 * mu * S)%R /\ (mu <= val f u)%R /\
  (let c := fsub nn f (fone (fw f)) (fsub nn f u x) in good c /\ (Rabs (val f c) <= 31 / 10 * mu * val f u)%R) /\
  (let c := fsub nn f x (fsub nn f u (fone (fw f))) in good c /\ (Rabs (val f c) <= 31 / 10 * mu * val f u)%R).
Proof.
  intros [Wx Fx] Hx [Wu Fu] Vu. cbv zeta. pose proof mu_small as MU. destruct (@fone_ok f) as (W1 & F1 & V1). pose proof (above x Hx) as AB. pose proof (eta_small f) as E0. pose proof (eta_u f) as E1.
  assert (SUB : forall p q, good p -> good q -> (Rabs (rnd f (val f p - val f q)) < bp (emax f))%R -> good (fsub nn f p q) /\ val f (fsub nn f p q) = rnd f (val f p - val f q)).
  { intros p q [Wp Fp] [Wq Fq] B. destruct (@sub_ok nn f p q Wp Wq) as (_ & C & _). destruct (C Fp Fq) as [C1 _]. unfold correct_round in C1. rewrite Rlt_bool_true in C1 by auto. split; [split; [apply fsub_word|apply C1]|apply C1]. }
  assert (RR : forall s, (Rabs (rnd f s - s) <= mu * Rabs s + eta f)%R) by (intros s; exact (rnd_rel f s)).
  destruct (Rle_or_lt (val f x) (- / 2)) as [Lo|Hi].
  - rewrite (@exact_low x) in Vu by lra. assert (B1 : (1 < bp (emax f))%R). { change 1%R with (bp 0). apply bpow_lt. clear; destruct f; reflexivity. }
    assert (G1 : rnd f 1 = 1%R) by (rewrite <- V1; apply rnd_id, fmt_val). assert (G0 : rnd f 0 = 0%R) by (apply rnd_id, generic_format_0).
    split; [rewrite Vu; replace (_ - _)%R with 0%R by ring; rewrite Rabs_R0; apply Rmult_le_pos; lra|]. split; [lra|].
    destruct (SUB u x) as [Gt Vt]; auto. { rewrite Vu. replace (val f x + 1 - val f x)%R with 1%R by ring. rewrite G1, Rabs_R1. exact B1. } rewrite Vu in Vt. replace (val f x + 1 - val f x)%R with 1%R in Vt by ring. rewrite G1 in Vt.
    destruct (SUB (fone (fw f)) (fsub nn f u x)) as [Gc Vc]; auto. { rewrite Vt, V1, Rminus_diag_eq, G0, Rabs_R0 by auto. lra. }
    assert (Rx : rnd f (val f x) = val f x) by (apply rnd_id, fmt_val).
    destruct (SUB u (fone (fw f))) as [Gs Vs]; auto. { rewrite Vu, V1. replace (val f x + 1 - 1)%R with (val f x) by ring. rewrite Rx. apply val_lt_emax. } rewrite Vu, V1 in Vs. replace (val f x + 1 - 1)%R with (val f x) in Vs by ring. rewrite Rx in Vs.
    destruct (SUB x (fsub nn f u (fone (fw f)))) as [Gd Vd]; auto. { rewrite Vs, Rminus_diag_eq, G0, Rabs_R0 by auto. lra. }
    split; (split; [auto|]). { rewrite Vc, Vt, V1, Rminus_diag_eq, G0, Rabs_R0 by auto. apply Rmult_le_pos; lra. } { rewrite Vd, Vs, Rminus_diag_eq, G0, Rabs_R0 by auto. apply Rmult_le_pos; lra. }
  - set (S := (1 + val f x)%R) in *. assert (S2 : (/ 2 < S)%R) by (unfold S; lra). assert (MS : (0 < mu * S)%R) by (apply Rmult_lt_0_compat; lra).
    assert (EM : (eta f <= / 512 * (mu * S))%R). { assert (mu * / 2 <= mu * S)%R by (apply Rmult_le_compat_l; lra). lra. }
    replace (val f x + 1)%R with S in Vu by (unfold S; ring). pose proof (RR S) as RU. rewrite <- Vu, (Rabs_right S) in RU by lra.
    assert (DU : (Rabs (val f u - S) <= 101 / 100 * mu * S)%R) by lra. split; [exact DU|]. pose proof (Rabs_imp _ _ DU) as DU'. assert (MS2 : (mu * S <= / 1048576 * S)%R) by (apply Rmult_le_compat_r; lra).
    assert (UB : (99 / 100 * S <= val f u <= 101 / 100 * S)%R) by lra. split; [lra|]. assert (EX : val f x = (S - 1)%R) by (unfold S; ring).
    assert (SX : (Rabs (val f x) <= S)%R). { rewrite EX. apply Rabs_le. lra. }
    assert (SB : (S <= 2 * bp (emax f))%R). { pose proof (@val_lt_emax f x) as V. pose proof (Rle_abs (val f x)). assert (1 <= bp (emax f))%R by (change 1%R with (bp 0); apply bpow_le; clear; destruct f; cbn; lia). lra. }
    assert (E2 : (0 < bp (emax f))%R) by apply bpow_gt_0. assert (MB : (mu * S <= / 500000 * bp (emax f))%R) by lra. assert (E3 : (1 <= / 1048576 * bp (emax f))%R). { change (/ 1048576)%R with (bp (-20)). rewrite <- bpow_plus. change 1%R with (bp 0). apply bpow_le. clear; destruct f; cbn; lia. }
    assert (M2 : forall t, (0 <= t <= 4 * S)%R -> (mu * t <= 4 * (mu * S))%R) by (intros t Ht; assert (mu * t <= mu * (4 * S))%R by (apply Rmult_le_compat_l; lra); lra).
    assert (MM : forall t, (0 <= t)%R -> (mu * t <= / 1048576 * t)%R) by (intros t Ht; apply Rmult_le_compat_r; lra).
    assert (CL : (31 / 10 * (99 / 100) * (mu * S) <= 31 / 10 * mu * val f u)%R). { assert (mu * (99 / 100 * S) <= mu * val f u)%R by (apply Rmult_le_compat_l; lra). lra. }
    split.
    + (* 1 - (u - x) *)
      pose proof (RR (val f u - val f x)%R) as R1. set (t := rnd f (val f u - val f x)) in *. assert (D1 : (Rabs (val f u - val f x) <= 1 + 101 / 100 * (mu * S))%R). { apply Rabs_le. lra. }
      assert (D2 : (mu * Rabs (val f u - val f x) <= 2 * (mu * S) + 2 * / 1048576 * (mu * S))%R). { apply Rle_trans with (mu * (1 + 101 / 100 * (mu * S)))%R; [apply Rmult_le_compat_l; lra|]. pose proof (MM (101 / 100 * (mu * S))%R ltac:(lra)). assert (mu * / 2 <= mu * S)%R by (apply Rmult_le_compat_l; lra). lra. }
      assert (D3 : (Rabs (t - (val f u - val f x)) <= 201 / 100 * (mu * S))%R) by lra. apply Rabs_imp in D3.
      destruct (SUB u x) as [Gt Vt]; auto. { fold t. apply Rabs_def1; lra. } fold t in Vt.
      assert (D4 : (Rabs (1 - t) <= 303 / 100 * (mu * S))%R) by (apply Rabs_le; lra). pose proof (RR (1 - t)%R) as R2. pose proof (MM (Rabs (1 - t)) (Rabs_pos _)) as R3.
      assert (D5 : (Rabs (rnd f (1 - t)) <= 304 / 100 * (mu * S))%R). { replace (rnd f (1 - t)) with ((rnd f (1 - t) - (1 - t)) + (1 - t))%R by ring. eapply Rle_trans; [apply Rabs_triang|]. lra. }
      destruct (SUB (fone (fw f)) (fsub nn f u x)) as [Gc Vc]; auto. { rewrite Vt, V1. lra. } split; auto. rewrite Vc, Vt, V1. lra.
    + (* x - (u - 1) *)
      pose proof (RR (val f u - 1)%R) as R1. set (t := rnd f (val f u - 1)) in *. assert (D1 : (Rabs (val f u - 1) <= 102 / 100 * S)%R) by (apply Rabs_le; lra).
      assert (D2 : (mu * Rabs (val f u - 1) <= 102 / 100 * (mu * S))%R) by (apply Rle_trans with (mu * (102 / 100 * S))%R; [apply Rmult_le_compat_l; lra|lra]).
      assert (D3 : (Rabs (t - (val f u - 1)) <= 103 / 100 * (mu * S))%R) by lra. apply Rabs_imp in D3.
      destruct (SUB u (fone (fw f))) as [Gt Vt]; auto. { rewrite V1. fold t. destruct (Rle_or_lt 1 (val f u)) as [P|P].
        - assert (VE : Valid_exp fx) by (apply fexp_correct, Hprec). assert (T1 : (0 <= t)%R). { unfold t, rnd. apply round_ge_generic; auto; try typeclasses eauto; [apply generic_format_0|lra]. }
          assert (T2 : (t <= val f u)%R). { rewrite <- (@rnd_id f (val f u)) by apply fmt_val. unfold t, rnd. apply round_le; auto; try typeclasses eauto. lra. }
          rewrite Rabs_right by lra. eapply Rle_lt_trans; [exact T2|]. pose proof (@val_lt_emax f u) as V. rewrite Rabs_right in V by lra. exact V.
        - assert (S <= 2)%R by lra. apply Rabs_def1; lra. }
      rewrite V1 in Vt. fold t in Vt.
      assert (D4 : (Rabs (val f x - t) <= 205 / 100 * (mu * S))%R) by (apply Rabs_le; lra). pose proof (RR (val f x - t)%R) as R2. pose proof (MM (Rabs (val f x - t)) (Rabs_pos _)) as R3.
      assert (D5 : (Rabs (rnd f (val f x - t)) <= 206 / 100 * (mu * S))%R). { replace (rnd f (val f x - t)) with ((rnd f (val f x - t) - (val f x - t)) + (val f x - t))%R by ring. eapply Rle_trans; [apply Rabs_triang|]. lra. }
      destruct (SUB x (fsub nn f u (fone (fw f)))) as [Gc Vc]; auto. { rewrite Vt. lra. } split; auto. rewrite Vc, Vt. lra.
Qed.
End A.

Lemma ln_bp e : ln (bp e) = (IZR e * ln 2)%R.
Proof. rewrite bpow_exp, ln_exp. reflexivity. Qed.
Lemma ln_div x y : (0 < x)%R -> (0 < y)%R -> ln (x / y) = (ln x - ln y)%R.
Proof. intros Hx Hy. unfold Rdiv. pose proof (Rinv_0_lt_compat y Hy). rewrite ln_mult, ln_Rinv by auto. ring. Qed.
Lemma ln_near u S d : (0 < S)%R -> (0 <= d <= / 1000)%R -> (Rabs (u - S) <= d * S)%R -> (Rabs (ln u - ln S) <= 101 / 100 * d)%R.
Proof.
  intros HS Hd H. apply Rabs_imp in H. assert (DS : (d * S <= / 1000 * S)%R) by (apply Rmult_le_compat_r; lra). assert (HU : (0 < u)%R) by lra.
  assert (A : (ln u - ln S <= d)%R). { rewrite <- ln_div by auto. eapply Rle_trans; [apply ln_le_x; apply Rdiv_lt_0_compat; auto|]. apply Rmult_le_reg_r with S; auto. replace ((u / S - 1) * S)%R with (u - S)%R by (field; lra). lra. }
  assert (B : (ln S - ln u <= 101 / 100 * d)%R). { rewrite <- ln_div by auto. eapply Rle_trans; [apply ln_le_x; apply Rdiv_lt_0_compat; auto|]. apply Rmult_le_reg_r with u; auto. replace ((S / u - 1) * u)%R with (S - u)%R by (field; lra). assert (d * (100 / 101 * S) <= d * u)%R by (apply Rmult_le_compat_l; lra). lra. }
  apply Rabs_le. lra.
Qed.

Section P.
Context {X : xty} (HX : xty_ok X) (HF : is_int (xT X) = false) (fm pn he : bool) (nn : nans).
Local Notation f := (xf X).
Local Notation mu := (bp (- prec f)).
Local Notation good y := (word (fw f) y /\ isfin f y = true).
Lemma eps_mu : epsilon f = (2 * mu)%R. Proof. destruct f; cbn; lra. Qed.
Lemma elog_lane x : word (fw f) x -> isfin f x = true -> (min_normal f <= val f x)%R -> good (elog1 (X := X) fm nn x) /\ (Rabs (val f (elog1 (X := X) fm nn x) - ln (val f x)) <= log_err f (ln (val f x)))%R.
Proof.
  intros Hx Fx B. destruct (normal_bits Hx Fx B) as (A & V & P).
  destruct (@core_acc nn X fm false x HX HF A) as (k & Wc & Fc & E & K). split; [split; [exact Wc|exact Fc]|]. rewrite V. cbn [core1 sclR] in E. unfold core1 in Fc.
  replace (ln (mval f x) / 1)%R with (ln (mval f x)) in E by field. eapply Rle_trans; [exact E|]. pose proof ln2_lb as L2. pose proof (unit_eps f) as U. pose proof (eps_pos f) as EP.
  unfold log_err. set (l := Rabs (ln (mval f x))) in *. rewrite plus_IZR, mult_IZR, abs_IZR, Rmult_plus_distr_r.
  assert (KB : (Rabs (IZR k) <= 100 / 69 * (l + 4 / 9))%R). { pose proof (Rabs_pos (IZR k)). assert (Rabs (IZR k) * (69 / 100) <= Rabs (IZR k) * ln 2)%R by (apply Rmult_le_compat_l; lra). lra. }
  assert (A1 : (IZR (AZ false f) * UU <= 7 * (epsilon f / 2))%R). { rewrite <- U, <- Rmult_assoc, <- mult_IZR. apply Rmult_le_compat_r; [pose proof UU_pos; lra|]. apply IZR_le. destruct f; cbv; discriminate. }
  assert (S1 : (IZR (SZ false f) * UU = 4 * (epsilon f / 2))%R). { rewrite <- U, <- Rmult_assoc, <- mult_IZR. destruct f; reflexivity. }
  replace (IZR (SZ false f) * Rabs (IZR k) * UU)%R with (4 * (epsilon f / 2) * Rabs (IZR k))%R by (rewrite <- S1; ring).
  assert (4 * (epsilon f / 2) * Rabs (IZR k) <= 4 * (epsilon f / 2) * (100 / 69 * (l + 4 / 9)))%R by (apply Rmult_le_compat_l; lra).
  assert (L0 : (0 <= l)%R) by apply Rabs_pos. assert (0 <= epsilon f * l)%R by (apply Rmult_le_pos; lra). nra.
Qed.
Lemma ev1p_form x : exists b1 b2 : bool, let u := fadd nn f x (fone (fw f)) in
  ev1p (X := X) fm nn x = fadd nn f (elog1 (X := X) fm nn u) (fdiv nn f (if b2 then 0 else if b1 then fsub nn f x (fsub nn f u (fone (fw f))) else fsub nn f (fone (fw f)) (fsub nn f u x)) u).
Proof. rewrite <- (w_fw HX HF). eexists _, _. cbv zeta. unfold ev1p. reflexivity. Qed.
Lemma ev1p_acc x : good x -> (-1 < val f x)%R -> within f (17 * mu * (1 + Rabs (ln (1 + val f x)))) (ln (1 + val f x)) (ev1p (X := X) fm nn x).
Proof.
  intros Gx Hx. destruct (@one_plus f nn x Gx Hx) as [Gu Vu]. destruct (ev1p_form x) as (b1 & b2 & EV). cbv zeta in EV. rewrite EV. clear EV. set (u := fadd nn f x (fone (fw f))) in *.
  destruct (@corr f nn x u Gx Hx Gu Vu) as (DU & UL & [G0 B0] & [G1 B1]). set (S := (1 + val f x)%R) in *. set (c0 := fsub nn f (fone (fw f)) _) in *. set (c1 := fsub nn f x _) in *.
  set (c := if b2 then 0 else if b1 then c1 else c0). pose proof (@mu_small f) as MU. pose proof (eta_small f) as E0. pose proof (eta_u f) as E1.
  assert (UP : (0 < val f u)%R) by lra. assert (SP : (0 < S)%R) by (unfold S; lra). assert (MUP : (0 <= 31 / 10 * mu * val f u)%R) by (apply Rmult_le_pos; lra).
  assert (GC : good c /\ (Rabs (val f c) <= 31 / 10 * mu * val f u)%R). { unfold c. destruct b2; [|destruct b1; auto]. destruct (@zero_ok f) as (W0 & F0 & V0). split; auto. rewrite V0, Rabs_R0. exact MUP. }
  clearbody c. clear c0 c1 G0 B0 G1 B1. destruct GC as [Gc Bc].
  assert (MN : (min_normal f <= val f u)%R). { eapply Rle_trans; [|exact UL]. clear. destruct f; apply bpow_le; cbn; lia. }
  destruct (elog_lane (proj1 Gu) (proj2 Gu) MN) as [Ge Be]. set (e := elog1 (X := X) fm nn u) in *.
  assert (LN : (Rabs (ln (val f u) - ln S) <= 103 / 100 * mu)%R). { eapply Rle_trans; [apply (@ln_near (val f u) S (101 / 100 * mu)); auto; lra|]. lra. }
  assert (LU : (Rabs (ln (val f u)) <= 1024)%R).
  { pose proof ln2_lt1 as L2. pose proof ln2_lb as L3. assert (A1 : (ln (val f u) <= ln (bp (emax f)))%R). { apply Rlt_le, ln_increasing; auto. pose proof (@val_lt_emax f u) as V. rewrite Rabs_right in V by lra. exact V. }
    assert (A2 : (ln mu <= ln (val f u))%R) by (destruct UL as [UL|UL]; [apply Rlt_le, ln_increasing; lra|rewrite UL; lra]). rewrite ln_bp in A1, A2.
    assert (IZR (emax f) * ln 2 <= 1024)%R by (clear -L2 L3; destruct f; [change (emax F32) with 128|change (emax F64) with 1024]; lra). assert (-1024 <= IZR (- prec f) * ln 2)%R by (clear -L2 L3; destruct f; [change (- prec F32) with (-24)|change (- prec F64) with (-53)]; lra). apply Rabs_le. lra. }
  (* the quotient *)
  destruct (@div_ok nn f c u (proj1 Gc) (proj1 Gu)) as (_ & D & _). destruct (D (proj2 Gc) (proj2 Gu)) as [D1 _]. { intros Z. apply (iszero_mag (proj1 Gu)) in Z. apply (val_zero f (proj1 Gu) (proj2 Gu)) in Z. lra. } clear D.
  assert (QB : (Rabs (val f c / val f u) <= 31 / 10 * mu)%R). { unfold Rdiv. rewrite Rabs_mult, Rabs_inv, (Rabs_right (val f u)) by lra. apply Rmult_le_reg_r with (val f u); auto. rewrite Rmult_assoc, Rinv_l, Rmult_1_r by lra. exact Bc. }
  destruct (@cr_lt f _ _ 0 D1 ltac:(clear; destruct f; cbn; lia)) as [Fq Vq]. { change (bp 0) with 1%R. lra. }
  set (q := fdiv nn f c u) in *. pose proof (rnd_rel f (val f c / val f u)) as RQ. fold (eta f) in RQ. rewrite <- Vq in RQ.
  assert (MQ : (mu * Rabs (val f c / val f u) <= / 1048576 * (31 / 10 * mu))%R) by (apply Rmult_le_compat; try lra; apply Rabs_pos).
  assert (QB2 : (Rabs (val f q) <= 311 / 100 * mu)%R). { replace (val f q) with ((val f q - val f c / val f u) + val f c / val f u)%R by ring. eapply Rle_trans; [apply Rabs_triang|]. lra. }
  (* the sum *)
  unfold log_err in Be. rewrite eps_mu in Be. pose proof (Rabs_pos (ln (val f u))) as L0. set (lu := Rabs (ln (val f u))) in *. set (l := Rabs (ln S)) in *. assert (Pl : (0 <= l)%R) by apply Rabs_pos.
  assert (LL : (lu <= l + 103 / 100 * mu)%R). { unfold lu, l. replace (ln (val f u)) with ((ln (val f u) - ln S) + ln S)%R by ring. eapply Rle_trans; [apply Rabs_triang|]. lra. }
  assert (ML : (0 <= mu * lu)%R) by (apply Rmult_le_pos; lra). assert (ML1 : (mu * lu <= / 1048576 * lu)%R) by (apply Rmult_le_compat_r; lra). assert (ML2 : (mu * lu <= mu * l + / 1000 * mu)%R). { apply Rle_trans with (mu * (l + 103 / 100 * mu))%R; [apply Rmult_le_compat_l; lra|]. assert (mu * mu <= / 1048576 * mu)%R by (apply Rmult_le_compat_r; lra). lra. } assert (ML3 : (0 <= mu * l)%R) by (apply Rmult_le_pos; lra).
  assert (EB : (Rabs (val f e) <= lu + 12 * (mu + mu * lu))%R). { replace (val f e) with ((val f e - ln (val f u)) + ln (val f u))%R by ring. eapply Rle_trans; [apply Rabs_triang|]. fold lu. lra. }
  destruct (@add_ok nn f e q (proj1 Ge) (@fdiv_word nn f c u)) as (_ & D & _). destruct (D (proj2 Ge) Fq) as [D2 _]. clear D.
  assert (SB : (Rabs (val f e + val f q) <= lu + 16 * (mu + mu * lu))%R). { eapply Rle_trans; [apply Rabs_triang|]. lra. }
  destruct (@cr_lt f _ _ 12 D2 ltac:(clear; destruct f; cbn; lia)) as [Fy Vy]. { change (bp 12) with 4096%R. lra. }
  split; [exact Fy|]. rewrite Vy. pose proof (rnd_rel f (val f e + val f q)) as RY. fold (eta f) in RY.
  assert (MY : (mu * Rabs (val f e + val f q) <= mu * lu + 17 / 1000 * (mu + mu * lu))%R). { apply Rle_trans with (mu * (lu + 16 * (mu + mu * lu)))%R; [apply Rmult_le_compat_l; lra|]. assert (mu * (mu + mu * lu) <= / 1048576 * (mu + mu * lu))%R by (apply Rmult_le_compat_r; lra). lra. }
  replace (rnd f (val f e + val f q) - ln S)%R with ((rnd f (val f e + val f q) - (val f e + val f q)) + ((val f e - ln (val f u)) + (val f q + (ln (val f u) - ln S))))%R by ring.
  eapply Rle_trans; [apply Rabs_triang|]. eapply Rle_trans; [apply Rplus_le_compat_l, Rabs_triang|]. eapply Rle_trans; [apply Rplus_le_compat_l, Rplus_le_compat_l, Rabs_triang|]. lra.
Qed.
(** the lane function *)
(* *)
Lemma log1p_lane x : word (fw f) x -> isfin f x = true -> (-1 < val f x)%R -> within f (9 * epsilon f * (1 + Rabs (ln (1 + val f x)))) (ln (1 + val f x)) (log1p1 (X := X) fm pn he nn x).
Proof.
  intros Hx Fx Vx. rewrite eps_mu. pose proof (@mu_small f) as MU. set (l := ln (1 + val f x)). pose proof (Rabs_pos l) as Pl. assert (ML : (0 <= mu * Rabs l)%R) by (apply Rmult_le_pos; lra). destruct (@m1_ok X) as (W0 & F0 & V0).
  unfold log1p1, log1pex1. rewrite (fin_case HX HF Hx Fx). rewrite (w_fw HX HF).
  replace (feq (fw f) x (fminus1 (fw f))) with false. 2: { symmetry. destruct (feq (fw f) x (fminus1 (fw f))) eqn:Q; auto. apply (@feq_val X) in Q; auto. lra. }
  replace (flt (fw f) x (fminus1 (fw f))) with false. 2: { symmetry. rewrite (flt_val Hx W0 Fx F0), V0. apply Rlt_bool_false. lra. }
  assert (Y : within f (9 * (2 * mu) * (1 + Rabs l)) l (if feq (fw f) x 0 then 0 else ev1p (X := X) fm nn x)).
  { destruct (feq (fw f) x 0) eqn:Q.
    - destruct (@zero_ok f) as (Wz & Fz & Vz). apply (@feq_val X) in Q; auto. split; auto. unfold l. rewrite Q, Vz, Rplus_0_r, ln_1, Rminus_0_r, Rabs_R0. lra.
    - destruct (ev1p_acc (conj Hx Fx) Vx) as [A B]. split; auto. fold l in B. eapply Rle_trans; [exact B|]. lra. }
  assert (Z : lshr_bits (mant (fw f)) x = 0 -> within f (9 * (2 * mu) * (1 + Rabs l)) l x).
  { intros Z. split; auto. assert (K : 0 <= x < 2 ^ mw f). { unfold lshr_bits in Z. assert (M : mant (fw f) = mw f) by (destruct f; reflexivity). rewrite M in Z. assert (P : 0 < 2 ^ mw f) by (destruct f; reflexivity). pose proof (Z_div_mod_eq_full x (2 ^ mw f)). pose proof (Z.mod_pos_bound x (2 ^ mw f) P). lia. }
    assert (B : (0 <= val f x <= mu)%R). { assert (Q : 0 <= x < finf (fw f)) by (revert K; clear; destruct f; cbn; lia). rewrite (nn_val f Q). split; [apply mval_nonneg|]. apply Rle_trans with (mval f (1 * 2 ^ mw f)); [apply mval_le; lia|]. rewrite (@mval_pow f 1) by lia. apply bpow_le. clear. destruct f; cbn; lia. }
    assert (L1 : (0 <= l <= val f x)%R). { unfold l. split; [rewrite <- ln_1; destruct (proj1 B) as [L|L]; [apply Rlt_le, ln_increasing; lra|rewrite <- L, Rplus_0_r; lra]|]. eapply Rle_trans; [apply ln_le_x; lra|]. lra. }
    apply Rabs_le. lra. }
  destruct (pn || he), he; auto; destruct (Z.eqb_spec (lshr_bits (mant (fw f)) x) 0); auto.
Qed.
End P.
