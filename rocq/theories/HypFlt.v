(** hypot of floats: evaluation in double precision (C66). *)
From Coq Require Import ZifyBool ZifyNat Reals Lra.
From Flocq Require Import Core Relative Mult_error IEEE754.BinarySingleNaN IEEE754.Binary.
From Verif Require Import Base Cxx Spec X86Vec X86 X86Lemmas X86Proofs X86Ops X86Shift Fp FpLemmas FpOps FMath FMathProofs FLane FFields FManip FManipLanes PropManip RoundSem FArith PropArith FCvt Hypot HypotProofs HypotSem PropHypot PropIeee FErr ArcKern HypNum HypSplit HypAcc HypDbl.
Set Implicit Arguments.
Open Scope Z_scope.
Local Notation bp := (bpow radix2).

Section Flt.
Context (nn : nans).
Local Notation good y := (word 64 y /\ isfin F64 y = true).
Local Notation goodf y := (word 32 y /\ isfin F32 y = true).
Lemma fmt_incl v : generic_format radix2 (SpecFloat.fexp (prec F32) (emax F32)) v -> generic_format radix2 (SpecFloat.fexp (prec F64) (emax F64)) v.
Proof. intros H. apply generic_inclusion_mag with (2 := H). intros _. generalize (mag radix2 v : Z). clear. intros e. unfold SpecFloat.fexp, SpecFloat.emin. cbn. lia. Qed.
Lemma cvt_up x : goodf x -> good (fcvt nn F32 F64 x) /\ val F64 (fcvt nn F32 F64 x) = val F32 x.
Proof.
  intros [W F]. assert (E : rnd F64 (val F32 x) = val F32 x) by (apply rnd_id, fmt_incl, fmt_val).
  destruct (@fcvt_fin nn F32 F64 x W F) as (V & F' & _). { rewrite E. eapply Rlt_trans; [apply val_lt_emax|]. apply bpow_lt. reflexivity. }
  split; [split; [apply fcvt_word|auto]|congruence].
Qed.
Lemma dist_ok fm x y : goodf x -> goodf y -> let S := (val F32 x * val F32 x + val F32 y * val F32 y)%R in (bp (-130) <= S <= bp 130)%R ->
  goodf (dist1 nn fm x y) /\ (Rabs (val F32 (dist1 nn fm x y) - sqrt S) <= 11 / 10 * bp (- prec F32) * sqrt S)%R.
Proof.
  intros Gx Gy. cbv zeta. unfold dist1. destruct (cvt_up Gx) as [Ga Va]. destruct (cvt_up Gy) as [Gb Vb]. set (a := fcvt nn F32 F64 x) in *. set (b := fcvt nn F32 F64 y) in *. rewrite <- Va, <- Vb.
  set (qa := (val F64 a * val F64 a)%R). set (qb := (val F64 b * val F64 b)%R). intros HS. assert (Pa : (0 <= qa)%R) by (unfold qa; nra). assert (Pb : (0 <= qb)%R) by (unfold qb; nra).
  assert (SP : (0 < qa + qb)%R) by (pose proof (bpow_gt_0 radix2 (-130)); lra).
  assert (Ee : (eta F64 <= e150 * (qa + qb))%R). { apply Rle_trans with (bp (-140) * bp (-130))%R. { rewrite <- bpow_plus. apply bpow_le. clear; cbn; lia. } apply Rle_trans with (e150 * bp (-130))%R; [apply Rmult_le_compat_r; [apply bpow_ge_0|unfold e150; cbn -[IZR]; lra]|apply Rmult_le_compat_l; [unfold e150; lra|lra]]. }
  assert (OP : forall s z, correct_round F64 s z -> word 64 z -> (Rabs s <= 4 * (qa + qb))%R -> good z /\ (Rabs (val F64 z - s) <= u53 * Rabs s + e150 * (qa + qb))%R).
  { intros s z C Wz B. assert (K : (Rabs s <= bp 132)%R). { eapply Rle_trans; [exact B|]. change 132 with (2 + 130). rewrite bpow_plus. change (bp 2) with 4%R. lra. }
    destruct (@cr_lt F64 _ _ 132 C ltac:(clear; cbn; lia) K) as [F V]. split; auto. rewrite V. pose proof (rnd_rel F64 s) as R. fold (eta F64) in R. rewrite u53_bp in R. lra. }
  destruct (OP _ _ (mulc nn Gb Gb) (@fmul_word nn F64 _ _)) as [G1 R1]. { fold qb. rewrite Rabs_right; lra. } fold qb in R1. rewrite (Rabs_right qb) in R1 by lra.
  set (t := val F64 (fmul nn F64 b b)) in *. apply Rabs_imp in R1.
  assert (RS : let s := if fm then ffma nn F64 a a (fmul nn F64 b b) else fadd nn F64 (fmul nn F64 a a) (fmul nn F64 b b) in good s /\ (Rabs (val F64 s - (qa + qb)) <= 31 / 10 * u53 * (qa + qb))%R).
  { cbv zeta. destruct fm.
    - pose proof (@fma_ok F64 nn a a _ (proj1 Ga) (proj1 Ga) (proj1 G1) (conj (proj2 Ga) (conj (proj2 Ga) (proj2 G1)))) as C. fold qa t in C.
      assert (B : (Rabs (qa + t) <= 101 / 100 * (qa + qb))%R) by (apply Rabs_le; unfold u53, e150 in *; lra).
      destruct (OP _ _ C (@ffma_word nn F64 _ _ _)) as [G2 R2]; [lra|]. split; auto. assert (R2' : (Rabs (val F64 (ffma nn F64 a a (fmul nn F64 b b)) - (qa + t)) <= 102 / 100 * u53 * (qa + qb))%R) by (unfold u53, e150 in *; lra).
      apply Rabs_imp in R2'. apply Rabs_le. unfold u53, e150 in *. lra.
    - destruct (OP _ _ (mulc nn Ga Ga) (@fmul_word nn F64 _ _)) as [G0 R0]. { fold qa. rewrite Rabs_right; lra. } fold qa in R0. rewrite (Rabs_right qa) in R0 by lra. apply Rabs_imp in R0. set (t0 := val F64 (fmul nn F64 a a)) in *.
      assert (B : (Rabs (t0 + t) <= 101 / 100 * (qa + qb))%R) by (apply Rabs_le; unfold u53, e150 in *; lra). pose proof (addc nn G0 G1) as C. fold t0 t in C.
      destruct (OP _ _ C (@fadd_word nn F64 _ _)) as [G2 R2]; [lra|]. split; auto. assert (R2' : (Rabs (val F64 (fadd nn F64 (fmul nn F64 a a) (fmul nn F64 b b)) - (t0 + t)) <= 102 / 100 * u53 * (qa + qb))%R) by (unfold u53, e150 in *; lra).
      apply Rabs_imp in R2'. apply Rabs_le. unfold u53, e150 in *. lra. }
  cbv zeta in RS. set (s := if fm then _ else _) in *. destruct RS as [Gs RS].
  destruct (@sqrt_rel (val F64 s) (qa + qb) (31 / 10 * u53) SP ltac:(unfold u53; lra) RS) as [S0 SR]. set (H := sqrt (qa + qb)) in *. assert (HP : (0 < H)%R) by now apply sqrt_lt_R0.
  destruct (@fsqrt_fin nn F64 s (proj1 Gs) (proj2 Gs) S0) as (V & F & _). pose proof (@fsqrt_word nn F64 s) as Wc. set (c := fsqrt nn F64 s) in *.
  assert (HL : (bp (-65) <= H <= bp 65)%R). { unfold H. split; [rewrite <- (sqrt_square (bp (-65))) by apply bpow_ge_0|rewrite <- (sqrt_square (bp 65)) by apply bpow_ge_0]; apply sqrt_le_1_alt; rewrite <- bpow_plus; [change (-65 + -65) with (-130)|change (65 + 65) with 130]; lra. }
  pose proof (rnd_rel F64 (sqrt (val F64 s))) as RR. fold (eta F64) in RR. rewrite u53_bp, <- V in RR.
  assert (EH : (eta F64 <= e150 * H)%R). { apply Rle_trans with (bp (-140) * bp (-65))%R. { rewrite <- bpow_plus. apply bpow_le. clear; cbn; lia. } apply Rle_trans with (e150 * bp (-65))%R; [apply Rmult_le_compat_r; [apply bpow_ge_0|unfold e150; cbn -[IZR]; lra]|apply Rmult_le_compat_l; [unfold e150; lra|lra]]. }
  assert (BS : (Rabs (sqrt (val F64 s)) <= 101 / 100 * H)%R) by (apply Rabs_imp in SR; apply Rabs_le; unfold u53 in *; lra).
  assert (RC : (Rabs (val F64 c - H) <= 3 * u53 * H)%R). { assert (R4 : (Rabs (val F64 c - sqrt (val F64 s)) <= 102 / 100 * u53 * H)%R) by (unfold u53, e150 in *; lra). apply Rabs_imp in R4, SR. apply Rabs_le. unfold u53 in *. lra. }
  pose proof (Rabs_imp _ _ RC) as RC'. assert (BC : (Rabs (val F64 c) <= 101 / 100 * H)%R) by (apply Rabs_le; unfold u53 in *; lra).
  destruct (@fcvt_fin nn F64 F32 c Wc F) as (V3 & F3 & _).
  { eapply Rle_lt_trans; [apply (@rnd_abs_le F32 _ 66); [clear; cbn; lia|]|apply bpow_lt; reflexivity]. eapply Rle_trans; [exact BC|]. change 66 with (1 + 65). rewrite bpow_plus. change (bp 1) with 2%R. lra. }
  split; [split; [apply fcvt_word|auto]|]. rewrite V3. pose proof (rnd_rel F32 (val F64 c)) as R3. fold (eta F32) in R3.
  assert (E3 : (eta F32 <= / 1000 * bp (- prec F32) * H)%R). { apply Rle_trans with (bp (-10) * bp (- prec F32) * bp (-65))%R. { rewrite <- !bpow_plus. apply bpow_le. clear; cbn; lia. } apply Rmult_le_compat; try lra; [rewrite <- bpow_plus; apply bpow_ge_0|apply bpow_ge_0|]. apply Rmult_le_compat_r; [apply bpow_ge_0|]. change (bp (-10)) with (/ 1024)%R. lra. }
  assert (R5 : (Rabs (rnd F32 (val F64 c) - val F64 c) <= 102 / 100 * bp (- prec F32) * H)%R). { assert (bp (- prec F32) * Rabs (val F64 c) <= bp (- prec F32) * (101 / 100 * H))%R by (apply Rmult_le_compat_l; [apply bpow_ge_0|auto]). assert (0 <= bp (- prec F32) * H)%R by (apply Rmult_le_pos; [apply bpow_ge_0|lra]). lra. }
  assert (UU' : (3 * u53 <= / 1000 * bp (- prec F32))%R). { change (bp (- prec F32)) with (/ 16777216)%R. unfold u53. lra. }
  apply Rabs_imp in R5. assert (3 * u53 * H <= / 1000 * bp (- prec F32) * H)%R by (apply Rmult_le_compat_r; lra). apply Rabs_le. lra.
Qed.
Lemma bp_s n : 1 <= n -> mval F32 (n * 2 ^ 23) = bp (n - 127).
Proof. intros H. change (2 ^ 23) with (2 ^ mw F32). rewrite (@mval_pow F32 n H). f_equal. cbn. lia. Qed.
Lemma ge_s a n : 1 <= n -> n * 2 ^ 23 <= a -> (bp (n - 127) <= mval F32 a)%R.
Proof. intros H L. rewrite <- bp_s by auto. apply mval_le. lia. Qed.
Lemma lt_s a n : 1 <= n -> 0 <= a <= n * 2 ^ 23 -> (mval F32 a <= bp (n - 127))%R.
Proof. intros H L. rewrite <- bp_s by auto. now apply mval_le. Qed.
Lemma vm90 : val F32 0x12800000 = bp (-90). Proof. rewrite nn_val by (cbn; lia). exact (@bp_s 37 ltac:(lia)). Qed.
Lemma vp90 : val F32 0x6c800000 = bp 90. Proof. rewrite nn_val by (cbn; lia). exact (@bp_s 217 ltac:(lia)). Qed.
Lemma v1s : val F32 0x3f800000 = bp 0. Proof. rewrite nn_val by (cbn; lia). exact (@bp_s 127 ltac:(lia)). Qed.
Lemma c0f_near fm a b m m' k : goodf a -> goodf b -> goodf m -> goodf m' -> val F32 m = bp k -> val F32 m' = bp (- k) -> (0 <= val F32 b <= val F32 a)%R ->
  (bp (-126) <= val F32 b * bp k)%R \/ 0 <= k -> (bp (-62) <= val F32 a * bp k <= bp 60)%R ->
  hyp_near F32 (val F32 a) (val F32 b) (fmul nn F32 m' (dist1 nn fm (fmul nn F32 b m) (fmul nn F32 a m))).
Proof.
  intros Ga Gb Gm Gm' Vm Vm' Hab Hb Ha. assert (Hk0 : (0 < bp k)%R) by apply bpow_gt_0.
  assert (U5 : (bp 60 <= bp (emax F32 - 2))%R) by (apply bpow_le; clear; cbn; lia). assert (L5 : (bp (emin F32 + prec F32 - 1) <= bp (-62))%R) by (apply bpow_le; clear; cbn; lia).
  assert (Hbk : (0 <= val F32 b * bp k <= val F32 a * bp k)%R) by (split; [apply Rmult_le_pos; lra|apply Rmult_le_compat_r; lra]).
  destruct (@scaled nn F32 a m k (proj1 Ga) (proj2 Ga) (proj1 Gm) (proj2 Gm) Vm) as (Wx & Fx & Vx). { left. rewrite Rabs_right by nra. lra. } { rewrite Rabs_right by nra. lra. }
  destruct (@scaled nn F32 b m k (proj1 Gb) (proj2 Gb) (proj1 Gm) (proj2 Gm) Vm) as (Wy & Fy & Vy). { destruct Hb as [Hb|Hb]; [left; rewrite Rabs_right by lra; exact Hb|now right]. } { rewrite Rabs_right by lra. lra. }
  destruct (@dist_ok fm _ _ (conj Wy Fy) (conj Wx Fx)) as [Gc Bc].
  { rewrite Vx, Vy. set (p := (val F32 a * bp k)%R) in *. set (q := (val F32 b * bp k)%R) in *. assert (P1 : (bp (-62) * bp (-62) <= p * p)%R) by (apply Rmult_le_compat; try lra; apply bpow_ge_0). assert (P2 : (p * p <= bp 60 * bp 60)%R) by (apply Rmult_le_compat; lra).
    assert (P3 : (q * q <= bp 60 * bp 60)%R) by (apply Rmult_le_compat; lra). assert (0 <= q * q)%R by nra. rewrite <- bpow_plus in P1, P2, P3. change (-62 + -62) with (-124) in P1. change (60 + 60) with 120 in P2, P3.
    assert (Q1 : (bp (-130) <= bp (-124))%R) by (apply bpow_le; lia). assert (Q2 : (bp 120 + bp 120 <= bp 130)%R). { replace (bp 130) with (bp 10 * bp 120)%R by (rewrite <- bpow_plus; reflexivity). change (bp 10) with 1024%R. pose proof (bpow_ge_0 radix2 120). lra. } lra. }
  set (c := dist1 nn fm _ _) in *. rewrite Vx, Vy, Rplus_comm in Bc. set (H' := sqrt _) in *. pose proof (hyp_scale (val F32 a) (val F32 b) k) as HS. fold H' in HS. assert (Hp : (0 <= H')%R) by apply sqrt_pos.
  unfold hyp_near. cbv zeta. rewrite <- HS. destruct (@mul_ok nn F32 m' c (proj1 Gm') (proj1 Gc)) as (_ & C & _). destruct (C (proj2 Gm') (proj2 Gc)) as [C1 _]. clear C. rewrite Vm' in C1. rewrite Rmult_comm in C1. assert (Hk1 : (0 < bp (- k))%R) by apply bpow_gt_0.
  change (bp (- prec F32)) with (/ 16777216)%R in *.
  assert (P : (0 <= val F32 c)%R). { apply Rabs_imp in Bc. lra. }
  destruct (@finish F32 _ (val F32 c * bp (- k)) (H' * bp (- k)) (11 / 10 * / 16777216) (eta F32) C1) as [[F B]|[I B]].
  - apply Rmult_le_pos; lra.
  - apply Rmult_le_pos; lra.
  - rewrite <- Rmult_minus_distr_r, Rabs_mult, (Rabs_right (bp (- k))) by lra. rewrite <- Rmult_assoc. apply Rmult_le_compat_r; lra.
  - apply scale_err. apply fmt_val.
  - left. split; auto. eapply Rle_trans; [exact B|]. apply Rplus_le_compat_r. apply Rmult_le_compat_r; [apply Rmult_le_pos; lra|]. lra.
  - right. split; auto. eapply Rlt_le_trans; [exact B|]. apply Rmult_le_compat_l; [apply Rmult_le_pos; lra|]. lra.
Qed.
Context {X : xty} (HF : is_int (xT X) = false) (E4 : esz (xT X) = 4%nat).
Lemma hypf_near fm pn a b : 0 <= b <= a -> a < finf 32 -> hyp_near F32 (val F32 a) (val F32 b) (hypf (X := X) nn fm pn a b).
Proof.
  intros Hab Hf. change (finf 32) with 0x7f800000 in Hf.
  assert (Ra : 0 <= a < finf (fw F32)) by (cbn; lia). assert (Rb : 0 <= b < finf (fw F32)) by (cbn; lia).
  assert (Ga : goodf a) by (split; [exact (nn_word F32 Ra)|exact (nn_fin F32 Ra)]). assert (Gb : goodf b) by (split; [exact (nn_word F32 Rb)|exact (nn_fin F32 Rb)]).
  pose proof (@nn_val F32 a Ra) as Va. pose proof (@nn_val F32 b Rb) as Vb. assert (Hv : (0 <= val F32 b <= val F32 a)%R). { rewrite Va, Vb. split; [apply mval_nonneg|apply mval_le; lia]. }
  assert (T1 : mag_ok a) by (unfold mag_ok; lia). assert (T2 : mag_ok b) by (unfold mag_ok; lia).
  assert (E : hypf (X := X) nn fm pn a b = if f_abs (X := X) a b then fadd nn F32 a b else f_c0 (X := X) nn fm a b).
  { unfold hypf. change (finf 32) with 0x7f800000. replace (b =? 0x7f800000) with false by lia. replace (0x7f800000 <=? a) with false by lia. destruct pn, (f_abs (X := X) a b); reflexivity. }
  rewrite E. rewrite (f_abs_spec HF E4 T1 T2). destruct ((b =? 0) || (25 * 2 ^ 23 - 1 <? a - b)) eqn:S.
  - destruct (Z.eqb_spec b 0) as [-> | Z].
    + apply (@sum_ok nn F32 a 0 24 (proj1 Ga) (proj1 Gb) (proj2 Ga) (proj2 Gb)); [lra|lra|clear; cbn; lia|]. change (val F32 0) with 0%R. lra.
    + apply (@sum_ok nn F32 a b 25 (proj1 Ga) (proj1 Gb) (proj2 Ga) (proj2 Gb)); [lra|lra|clear; cbn; lia|]. rewrite Va, Vb. eapply Rle_trans; [apply (@mval_ratio F32 b 25); lia|]. apply mval_le. cbn [mw]. lia.
  - assert (D1 : b <> 0) by lia. assert (D2 : a - b < 25 * 2 ^ 23) by lia.
    unfold f_c0. cbv zeta. rewrite (f_abs_spec HF E4 T1 T2), S. unfold f_mult, f_scale. rewrite (f_big_spec HF E4 T1), (f_smallm_spec HF E4 T1 T2).
    assert (G1 : goodf 0x12800000) by (split; [unfold word; lia|reflexivity]). assert (G2 : goodf 0x6c800000) by (split; [unfold word; lia|reflexivity]). assert (G3 : goodf 0x3f800000) by (split; [unfold word; lia|reflexivity]).
    rewrite (Ef4 E4). assert (Q : forall i j, i <= j -> (bp i <= bp j)%R) by (intros; now apply bpow_le). destruct (Z.leb_spec (0xbb * 2 ^ 23) a) as [Big|Big].
    + cbn [orb]. pose proof (@ge_s a 187 ltac:(lia) ltac:(lia)) as L1. pose proof (@ge_s b 162 ltac:(lia) ltac:(lia)) as L2. pose proof (@lt_s a 255 ltac:(lia) ltac:(lia)) as U1. rewrite <- Va in L1, U1. rewrite <- Vb in L2.
      assert (A1 : (bp (-30) <= val F32 a * bp (-90))%R). { change (-30) with (60 + -90). rewrite bpow_plus. apply Rmult_le_compat_r; [apply bpow_ge_0|exact L1]. }
      assert (A2 : (bp (-55) <= val F32 b * bp (-90))%R). { change (-55) with (35 + -90). rewrite bpow_plus. apply Rmult_le_compat_r; [apply bpow_ge_0|exact L2]. }
      assert (A3 : (val F32 a * bp (-90) <= bp 38)%R). { change 38 with (128 + -90). rewrite bpow_plus. apply Rmult_le_compat_r; [apply bpow_ge_0|exact U1]. }
      apply (@c0f_near fm a b _ _ (-90)); auto using vm90, vp90.
      * left. eapply Rle_trans; [|exact A2]. apply Q. lia.
      * split; [eapply Rle_trans; [|exact A1]; apply Q; lia|eapply Rle_trans; [exact A3|apply Q; lia]].
    + cbn [orb]. replace (a <? 0xbb * 2 ^ 23) with true by lia. cbn [andb].
      destruct (Z.ltb_spec b (0x43 * 2 ^ 23)) as [Sm|Sm].
      * assert (L1 : (bp (-149) <= mval F32 a)%R). { replace (bp (-149)) with (mval F32 1). { apply mval_le. lia. } unfold mval, msig, mex, mexp, mman. cbn [mw]. change (1 / 2 ^ 23 =? 0) with true. change (1 mod 2 ^ 23) with 1. cbv iota. rewrite Rmult_1_l. reflexivity. }
        assert (U1 : (mval F32 a <= bp (-35))%R). { exact (@lt_s a 92 ltac:(lia) ltac:(lia)). } rewrite <- Va in L1, U1.
        assert (A1 : (bp (-59) <= val F32 a * bp 90)%R). { change (-59) with (-149 + 90). rewrite bpow_plus. apply Rmult_le_compat_r; [apply bpow_ge_0|exact L1]. }
        assert (A3 : (val F32 a * bp 90 <= bp 55)%R). { change 55 with (-35 + 90). rewrite bpow_plus. apply Rmult_le_compat_r; [apply bpow_ge_0|exact U1]. }
        apply (@c0f_near fm a b _ _ 90); auto using vm90, vp90.
        { right. lia. }
        split; [eapply Rle_trans; [|exact A1]; apply Q; lia|eapply Rle_trans; [exact A3|apply Q; lia]].
      * pose proof (@ge_s b 67 ltac:(lia) ltac:(lia)) as L2. pose proof (@lt_s a 187 ltac:(lia) ltac:(lia)) as U1. rewrite <- Va in U1. rewrite <- Vb in L2. change (67 - 127) with (-60) in L2. change (187 - 127) with 60 in U1. pose proof (Q (-62) (-60) ltac:(lia)) as Q3.
        apply (@c0f_near fm a b _ _ 0); auto using v1s; change (bp 0) with 1%R.
        { right. lia. }
        lra.
Qed.
End Flt.
