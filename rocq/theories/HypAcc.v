(** Error analysis of hypot (C66). *)
From Coq Require Import ZifyBool ZifyNat Reals Lra.
From Flocq Require Import Core Relative Mult_error IEEE754.BinarySingleNaN IEEE754.Binary.
From Verif Require Import Base Cxx Spec X86Vec X86 X86Lemmas X86Proofs X86Ops Fp FpLemmas FpOps FMath FMathProofs FLane FFields FManip FManipLanes PropManip RoundSem FArith PropArith FCvt Hypot HypotProofs HypotSem PropHypot PropIeee FErr ArcKern HypNum HypSplit.
Set Implicit Arguments.
Open Scope Z_scope.
Local Notation bp := (bpow radix2).

(** *** Bit patterns of non-negative numbers *)
Section B.
Context (f : fmt).
Local Notation W := (fw f).
Local Notation M := (mw f).
Lemma nn_word k : 0 <= k < finf W -> word W k. Proof. unfold word. destruct f; cbn; lia. Qed.
Lemma nn_mag k : 0 <= k < finf W -> fmag W k = k. Proof. intros H. unfold fmag. apply Z.mod_small. destruct f; cbn in *; lia. Qed.
Lemma nn_fin k : 0 <= k < finf W -> isfin f k = true.
Proof. intros H. rewrite isfin_spec by now apply nn_word. rewrite nn_mag by auto. lia. Qed.
Lemma nn_val k : 0 <= k < finf W -> val f k = mval f k.
Proof.
  intros H. rewrite (val_mag (nn_word H) (nn_fin H)). rewrite nn_mag by auto. assert (S : fsign W k = false). { unfold fsign. destruct f; cbn in *; lia. } rewrite S. lra.
Qed.
Lemma mval_le i j : 0 <= i <= j -> (mval f i <= mval f j)%R.
Proof. intros H. destruct (Z.eq_dec i j) as [-> | N]; [lra|]. left. apply mval_lt. lia. Qed.
Lemma mval_pow n : 1 <= n -> mval f (n * 2 ^ M) = bp (n + emin f - 1 + M).
Proof.
  intros H. assert (P : 0 < 2 ^ M) by (destruct f; reflexivity). unfold mval, msig, mex, mexp, mman. rewrite Z.div_mul, Z.mod_mul by lia. replace (n =? 0) with false by lia. rewrite Z.add_0_l, Z.max_l by lia.
  change (2 ^ M) with (Zpower radix2 M). rewrite IZR_Zpower by (destruct f; discriminate). rewrite <- bpow_plus. f_equal. lia.
Qed.
Lemma mval_ratio j n : 0 <= j -> 0 <= n -> (mval f j * bp n <= mval f (j + n * 2 ^ M))%R.
Proof.
  intros Hj Hn. destruct (Z.eq_dec n 0) as [-> | Nz]. { rewrite Z.mul_0_l, Z.add_0_r. change (bp 0) with 1%R. lra. }
  assert (P : 0 < 2 ^ M) by (destruct f; reflexivity). unfold mval, msig, mex, mexp, mman. rewrite Z.div_add, Z.mod_add by lia. pose proof (Z.mod_pos_bound j _ P) as R. pose proof (Z.div_pos j _ Hj P) as D.
  replace (j / 2 ^ M + n =? 0) with false by lia. rewrite Rmult_assoc, <- bpow_plus. destruct (Z.eqb_spec (j / 2 ^ M) 0) as [E|E].
  - rewrite E. rewrite Z.max_r by lia. rewrite Z.max_l by lia. replace (1 + emin f - 1 + n) with (0 + n + emin f - 1 + 1) by lia. rewrite (bpow_plus radix2 _ 1). change (bp 1) with 2%R.
    rewrite (Rmult_comm _ 2), <- Rmult_assoc. apply Rmult_le_compat_r; [apply bpow_ge_0|]. rewrite <- mult_IZR. apply IZR_le. lia.
  - rewrite !Z.max_l by lia. replace (j / 2 ^ M + emin f - 1 + n) with (j / 2 ^ M + n + emin f - 1) by lia. lra.
Qed.
End B.

(** *** Double: the whole computation for operands of moderate size *)
Section D2.
Context {X : xty} (HX : xty_ok X) (HF : is_int (xT X) = false) (E8 : esz (xT X) = 8%nat) (nn : nans).
Local Notation good y := (word 64 y /\ isfin F64 y = true).
Definition sq_ok fm (x : Z) : Prop :=
  let h := fmul nn F64 x x in let l := split_l (X := X) nn fm x in let q := (val F64 x * val F64 x)%R in
  good h /\ good l /\ (Rabs (val F64 h + val F64 l - q) <= 11 / 10 * u53 * q)%R /\ (Rabs (val F64 l) <= 22 / 10 * u53 * q)%R /\ (Rabs (val F64 h - q) <= (u53 + e150) * q)%R.
Lemma sq_range fm x : good x -> (bp (-450) <= val F64 x <= bp 510)%R -> sq_ok fm x.
Proof.
  intros G H. destruct (split_ok HF E8 nn H fm G eq_refl) as (G1 & G2 & h & l & Eh & El & B1 & B2 & B3). unfold sq_ok. cbv zeta. set (q := (val F64 x * val F64 x)%R) in *.
  assert (Q : (0 < q)%R) by (unfold q; pose proof (bpow_gt_0 radix2 (-450)); nra). split; [exact G1|]. split; [exact G2|]. rewrite Eh, El. split; [|split].
  - replace (h * q + l * q - q)%R with ((h + l - 1) * q)%R by ring. rewrite Rabs_mult, (Rabs_right q) by lra. apply Rmult_le_compat_r; lra.
  - rewrite Rabs_mult, (Rabs_right q) by lra. apply Rmult_le_compat_r; lra.
  - replace (h * q - q)%R with ((h - 1) * q)%R by ring. rewrite Rabs_mult, (Rabs_right q) by lra. apply Rmult_le_compat_r; lra.
Qed.
Lemma sq_zero fm : sq_ok fm 0.
Proof.
  unfold sq_ok. cbv zeta. assert (E1 : fmul nn F64 0 0 = 0) by (clear; destruct nn; vm_compute; reflexivity).
  assert (E2 : split_l (X := X) nn fm 0 = 0). { unfold split_l, fmadd1, fmsub1. rewrite (Ef8 E8). clear. destruct nn, fm; vm_compute; reflexivity. }
  rewrite E1, E2. assert (V : val F64 0 = 0%R) by reflexivity. rewrite V. repeat split; try (unfold word; lia); try reflexivity; rewrite ?Rplus_0_l, ?Rmult_0_l, ?Rminus_0_r, ?Rabs_R0; unfold u53, e150; lra.
Qed.
Lemma core_ok fm x y : good x -> sq_ok fm x -> sq_ok fm y -> (bp (-450) <= val F64 x <= bp 510)%R -> (0 <= val F64 y <= val F64 x)%R ->
  let s := fadd nn F64 (fadd nn F64 (split_l (X := X) nn fm y) (split_l (X := X) nn fm x)) (fadd nn F64 (fmul nn F64 y y) (fmul nn F64 x x)) in
  let H := sqrt (val F64 x * val F64 x + val F64 y * val F64 y) in
  good (fsqrt nn F64 s) /\ (Rabs (val F64 (fsqrt nn F64 s) - H) <= 28 / 10 * u53 * H)%R /\ (0 < H)%R.
Proof.
  intros Gx (Ghx & Glx & X1 & X2 & X3) (Ghy & Gly & Y1 & Y2 & Y3) Rx Ry. cbv zeta. set (qx := (val F64 x * val F64 x)%R) in *. set (qy := (val F64 y * val F64 y)%R) in *.
  pose proof (v2_low Rx) as V2. fold qx in V2. pose proof (e150_2 HF E8 Rx) as Ee. fold qx in Ee. assert (Px : (0 < qx)%R) by (pose proof (bpow_gt_0 radix2 (-900)); lra).
  assert (Py : (0 <= qy <= qx)%R). { unfold qy, qx. split; [nra|]. apply Rmult_le_compat; lra. } clearbody qx qy.
  assert (K : forall s, (Rabs s <= 4 * qx)%R -> (Rabs s <= bp 1022)%R). { intros s Hs. eapply Rle_trans; [exact Hs|]. change 1022 with (2 + 1020). rewrite bpow_plus. change (bp 2) with 4%R. lra. }
  assert (OP : forall s y, correct_round F64 s y -> word 64 y -> (Rabs s <= 4 * qx)%R -> good y /\ (Rabs (val F64 y - s) <= u53 * Rabs s + e150 * qx)%R).
  { intros s z C Wz B. destruct (@cr_lt F64 _ _ 1022 C ltac:(clear; cbn; lia) (K _ B)) as [F V]. split; auto. rewrite V. pose proof (rnd_rel F64 s) as R. fold (eta F64) in R. rewrite u53_bp in R. lra. }
  apply Rabs_imp in X1, X3, Y1, Y3. pose proof (Rabs_imp _ _ X2) as X2'. pose proof (Rabs_imp _ _ Y2) as Y2'.
  set (hx := val F64 (fmul nn F64 x x)) in *. set (hy := val F64 (fmul nn F64 y y)) in *. set (lx := val F64 (split_l (X := X) nn fm x)) in *. set (ly := val F64 (split_l (X := X) nn fm y)) in *.
  assert (Bl : (Rabs (ly + lx) <= 44 / 10 * u53 * qx)%R) by (apply Rabs_le; unfold u53, e150 in *; lra).
  assert (Bl2 : (Rabs (ly + lx) <= 22 / 10 * u53 * (qx + qy))%R) by (apply Rabs_le; unfold u53, e150 in *; lra).
  destruct (OP _ _ (addc nn Gly Glx) (@fadd_word nn F64 _ _)) as [G1 R1]. { fold lx ly. unfold u53 in *; lra. } fold lx ly in R1. set (t1 := val F64 (fadd nn F64 (split_l (X := X) nn fm y) (split_l (X := X) nn fm x))) in *.
  assert (Bh : (Rabs (hy + hx) <= 101 / 100 * (qx + qy))%R) by (apply Rabs_le; unfold u53, e150 in *; lra).
  destruct (OP _ _ (addc nn Ghy Ghx) (@fadd_word nn F64 _ _)) as [G2 R2]. { fold hx hy. lra. } fold hx hy in R2. set (t2 := val F64 (fadd nn F64 (fmul nn F64 y y) (fmul nn F64 x x))) in *.
  assert (Rl : (Rabs (t1 - (ly + lx)) <= / 1000 * u53 * (qx + qy))%R) by (unfold u53, e150 in *; lra). assert (Rh : (Rabs (t2 - (hy + hx)) <= 102 / 100 * u53 * (qx + qy))%R) by (unfold u53, e150 in *; lra).
  assert (Bs : (Rabs (t1 + t2) <= 102 / 100 * (qx + qy))%R) by (apply Rabs_imp in Rl, Rh; pose proof (Rabs_imp _ _ Bh); pose proof (Rabs_imp _ _ Bl2); apply Rabs_le; unfold u53, e150 in *; lra).
  destruct (OP _ _ (addc nn G1 G2) (@fadd_word nn F64 _ _)) as [G3 R3]. { fold t1 t2. lra. } fold t1 t2 in R3. set (s := fadd nn F64 (fadd nn F64 (split_l (X := X) nn fm y) (split_l (X := X) nn fm x)) (fadd nn F64 (fmul nn F64 y y) (fmul nn F64 x x))) in *.
  assert (RS : (Rabs (val F64 s - (qx + qy)) <= 33 / 10 * u53 * (qx + qy))%R). { apply Rabs_imp in Rl, Rh. assert (R3' : (Rabs (val F64 s - (t1 + t2)) <= 103 / 100 * u53 * (qx + qy))%R) by (unfold u53, e150 in *; lra). apply Rabs_imp in R3'. apply Rabs_le. unfold u53 in *. lra. }
  destruct (@sqrt_rel (val F64 s) (qx + qy) (33 / 10 * u53) ltac:(lra) ltac:(unfold u53; lra) RS) as [S0 SR]. set (H := sqrt (qx + qy)) in *. assert (HP : (0 < H)%R) by (apply sqrt_lt_R0; lra).
  destruct (@fsqrt_fin nn F64 s (proj1 G3) (proj2 G3) S0) as (V & F & _). split; [split; [apply fsqrt_word|exact F]|]. split; auto. rewrite V.
  assert (HL : (bp (-450) <= H)%R). { unfold H. rewrite <- (sqrt_square (bp (-450))) by apply bpow_ge_0. apply sqrt_le_1_alt. rewrite <- bpow_plus. change (-450 + -450) with (-900). lra. }
  pose proof (rnd_rel F64 (sqrt (val F64 s))) as RR. fold (eta F64) in RR. rewrite u53_bp in RR. pose proof (e150_1 HF E8 Rx) as E1.
  assert (EH : (eta F64 <= e150 * H)%R). { apply Rle_trans with (bp (-140) * bp (-450))%R. { rewrite <- bpow_plus. apply bpow_le. clear; cbn; lia. } apply Rle_trans with (e150 * bp (-450))%R; [apply Rmult_le_compat_r; [apply bpow_ge_0|unfold e150; cbn -[IZR]; lra]|apply Rmult_le_compat_l; [unfold e150; lra|auto]]. }
  assert (BS : (Rabs (sqrt (val F64 s)) <= 101 / 100 * H)%R) by (apply Rabs_imp in SR; apply Rabs_le; unfold u53 in *; lra).
  assert (R4 : (Rabs (rnd F64 (sqrt (val F64 s)) - sqrt (val F64 s)) <= 102 / 100 * u53 * H)%R) by (unfold u53, e150 in *; lra).
  apply Rabs_imp in SR, R4. apply Rabs_le. unfold u53 in *. lra.
Qed.
End D2.
