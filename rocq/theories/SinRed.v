(** Argument reduction of sin and cos (TrigProofs.oct1, red1): the octant and the error of the reduced argument. *)
From Coq Require Import ZifyBool ZifyNat Reals Lra.
From Flocq Require Import Core IEEE754.BinarySingleNaN IEEE754.Binary.
From Verif Require Import Base Cxx Spec X86Vec X86 X86Lemmas X86Proofs X86Masks X86Ops X86Shift Fp FpLemmas FpOps FKern FMath FMathProofs FLane FFields FManip FManipLanes LogbProofs
  PropX86 PropFloat PropManip Cvt CvtProofs PropCvt Round RoundProofs RoundLanes RoundSem PropRound FArith PropArith FCvt Hypot HypotProofs HypotSem PropHypot PropIeee LogTab Log LogProofs PropLog TrigTab Trig TrigProofs PropTrig FErr IvPoly PiBound SinPoly SinEval.
Set Implicit Arguments.
Open Scope Z_scope.

(** *** pi / 4 and the constants *)
Definition ipi4 : Z * Z := (pi_lo * 2 ^ 8, pi_hi * 2 ^ 8).
Lemma pi4_iv : iv ipi4 (PI / 4).
Proof.
  unfold iv, ipi4. cbn [fst snd]. destruct pi_fx as [A B]. pose proof UU_pos as UP. rewrite !mult_IZR. change (IZR (2 ^ 8)) with 256%R.
  assert (E : (IZR fx * (1024 * UU) = 1)%R). { unfold fx. rewrite <- UU_inv. replace (2 ^ 140) with (2 ^ 130 * 1024) by reflexivity. rewrite mult_IZR. ring. }
  assert (F : (PI / 4 = IZR fx * PI * (256 * UU))%R). { replace (IZR fx * PI * (256 * UU))%R with (IZR fx * (1024 * UU) * PI / 4)%R by field. rewrite E. field. }
  rewrite F. rewrite (Rmult_assoc (IZR pi_lo)), (Rmult_assoc (IZR pi_hi)). split; apply Rmult_le_compat_r; lra.
Qed.
Lemma pi4_bounds : (12867 / 16384 <= PI / 4 <= 12868 / 16384)%R.
Proof.
  destruct pi4_iv as [A B]. pose proof UU_pos as UP. pose proof UU_inv as I. split.
  - eapply Rle_trans; [|exact A]. apply Rmult_le_reg_r with 16384%R; [lra|]. replace (12867 / 16384 * 16384)%R with (IZR (12867 * 2 ^ 140) * UU)%R by (rewrite mult_IZR, Rmult_assoc, I; field).
    rewrite Rmult_assoc, (Rmult_comm UU), <- Rmult_assoc, <- mult_IZR. apply Rmult_le_compat_r; [lra|]. apply IZR_le. vm_compute. discriminate.
  - eapply Rle_trans; [exact B|]. apply Rmult_le_reg_r with 16384%R; [lra|]. replace (12868 / 16384 * 16384)%R with (IZR (12868 * 2 ^ 140) * UU)%R by (rewrite mult_IZR, Rmult_assoc, I; field).
    rewrite (Rmult_assoc _ UU), (Rmult_comm UU), <- Rmult_assoc, <- mult_IZR. apply Rmult_le_compat_r; [lra|]. apply IZR_le. vm_compute. discriminate.
Qed.
(** bounds by powers of two *)
Lemma uu_pow k : 0 <= k -> (IZR (2 ^ k) * UU = bpow radix2 (k - 140))%R.
Proof. intros Hk. unfold UU. change 2 with (radix_val radix2). rewrite IZR_Zpower by auto. rewrite <- bpow_plus. f_equal. Qed.
Definition dpc (f : fmt) (i : nat) : Z := nth i (dp_sincos (fw f)) 0.
Definition c0 (f : fmt) : R := (val f (dpc f 0) + PI / 4)%R.
Definition c1 (f : fmt) : R := (val f (dpc f 0) + val f (dpc f 1) + PI / 4)%R.
Definition c2 (f : fmt) : R := (val f (dpc f 0) + val f (dpc f 1) + val f (dpc f 2) + PI / 4)%R.
Lemma dp_fin f i : (i < 3)%nat -> zcok f (dpc f i) = true.
Proof. intros H. destruct i as [|[|[|]]]; [| | |lia]; destruct f; vm_compute; reflexivity. Qed.
Definition ip (f : fmt) (i : nat) := ipt (zc f (dpc f i)).
Lemma ip_ok f i : (i < 3)%nat -> iv (ip f i) (val f (dpc f i)). Proof. intros H. apply ipt_ok. now apply dp_fin. Qed.
Definition C2e (f : fmt) : Z := match f with F32 => 67 | F64 => 55 end.
Lemma cs_ok f : (Rabs (c0 f) <= IZR 41 * bpow radix2 (-30))%R /\ (Rabs (c1 f) <= bpow radix2 (-48))%R /\ (Rabs (c2 f) <= bpow radix2 (C2e f - 140))%R.
Proof.
  pose proof pi4_iv as P. pose proof (@ip_ok f 0 ltac:(lia)) as A0. pose proof (@ip_ok f 1 ltac:(lia)) as A1. pose proof (@ip_ok f 2 ltac:(lia)) as A2. unfold c0, c1, c2. split; [|split].
  - change (-30) with (110 - 140). rewrite <- uu_pow by lia. rewrite <- Rmult_assoc, <- mult_IZR. eapply iv_abs; [exact (iadd_ok _ _ _ _ A0 P)|destruct f; vm_compute; discriminate|destruct f; vm_compute; discriminate].
  - change (-48) with (92 - 140). rewrite <- uu_pow by lia. eapply iv_abs; [exact (iadd_ok _ _ _ _ (iadd_ok _ _ _ _ A0 A1) P)|destruct f; vm_compute; discriminate|destruct f; vm_compute; discriminate].
  - rewrite <- uu_pow by (destruct f; cbn; lia). eapply iv_abs; [exact (iadd_ok _ _ _ _ (iadd_ok _ _ _ _ (iadd_ok _ _ _ _ A0 A1) A2) P)|destruct f; vm_compute; discriminate|destruct f; vm_compute; discriminate].
Qed.
Lemma pio4_ok f : let p := val f (c_pio4 (fw f)) in (12867 / 16384 <= p <= 12868 / 16384)%R /\ (Rabs (p - PI / 4) <= bpow radix2 (match f with F32 => -25 | F64 => -54 end))%R /\ isfin f (c_pio4 (fw f)) = true /\ word (fw f) (c_pio4 (fw f)).
Proof.
  cbv zeta. assert (K : zcok f (c_pio4 (fw f)) = true) by (destruct f; vm_compute; reflexivity).
  assert (D : (Rabs (val f (c_pio4 (fw f)) - PI / 4) <= bpow radix2 (match f with F32 => -25 | F64 => -54 end))%R).
  { replace (match f with F32 => -25 | F64 => -54 end) with (match f with F32 => 115 | F64 => 86 end - 140) by (destruct f; reflexivity). rewrite <- uu_pow by (destruct f; lia).
    eapply iv_abs; [exact (isubc_ok _ _ _ _ (ipt_ok _ _ K) pi4_iv)|destruct f; vm_compute; discriminate|destruct f; vm_compute; discriminate]. }
  split; [|split; [exact D|]].
  - pose proof UU_pos as UP. pose proof UU_inv as I. rewrite (zc_ok _ _ K). split.
    + apply Rmult_le_reg_r with 16384%R; [lra|]. replace (12867 / 16384 * 16384)%R with (IZR (12867 * 2 ^ 140) * UU)%R by (rewrite mult_IZR, Rmult_assoc, I; field).
      rewrite (Rmult_assoc _ UU), (Rmult_comm UU), <- Rmult_assoc, <- mult_IZR. apply Rmult_le_compat_r; [lra|]. apply IZR_le. destruct f; vm_compute; discriminate.
    + apply Rmult_le_reg_r with 16384%R; [lra|]. replace (12868 / 16384 * 16384)%R with (IZR (12868 * 2 ^ 140) * UU)%R by (rewrite mult_IZR, Rmult_assoc, I; field).
      rewrite (Rmult_assoc _ UU), (Rmult_comm UU), <- Rmult_assoc, <- mult_IZR. apply Rmult_le_compat_r; [lra|]. apply IZR_le. destruct f; vm_compute; discriminate.
  - destruct f; split; try reflexivity; unfold word; vm_compute; split; congruence.
Qed.

(** *** The octant *)
Lemma land_m2 w n : 0 < w -> 0 <= n < 2 ^ w -> Z.land n (wrap w (-2)) = 2 * (n / 2).
Proof.
  intros Hw Hn. assert (E : wrap w (-2) = Z.ldiff (Z.ones w) (Z.ones 1)).
  { unfold wrap. apply Z.bits_inj'. intros k Hk. destruct (Z.lt_ge_cases k w).
    - rewrite Z.mod_pow2_bits_low by lia. rewrite Z.ldiff_spec, !Z.testbit_ones_nonneg by lia. replace (k <? w) with true by lia. change (-2) with (Z.lnot (Z.ones 1)). rewrite Z.lnot_spec, Z.testbit_ones_nonneg by lia. reflexivity.
    - rewrite Z.mod_pow2_bits_high by lia. rewrite Z.ldiff_spec, !Z.testbit_ones_nonneg by lia. replace (k <? w) with false by lia. reflexivity. }
  rewrite E. replace (Z.land n (Z.ldiff (Z.ones w) (Z.ones 1))) with (Z.ldiff (Z.land n (Z.ones w)) (Z.ones 1)).
  - rewrite Z.land_ones, Z.mod_small by lia. rewrite Z.ldiff_ones_r by lia. rewrite Z.shiftl_mul_pow2, Z.shiftr_div_pow2 by lia. change (2 ^ 1) with 2. lia.
  - apply Z.bits_inj'. intros k Hk. rewrite !Z.ldiff_spec, !Z.land_spec, Z.ldiff_spec. now rewrite andb_assoc.
Qed.
Definition rmax (f : fmt) : R := match f with F32 => 12 / 10 | F64 => 786 / 1000 end%R.
Definition uu (f : fmt) : R := bpow radix2 (- prec f).
(** without SSE3 the truncation of a fraction is not zero (PropRound), but it is at most 1/2 and then rounds to zero *)
Lemma pow_word m : 1 <= m < 2047 -> val F64 (m * 2 ^ 52) = bpow radix2 (m - 1023) /\ word 64 (m * 2 ^ 52) /\ isfin F64 (m * 2 ^ 52) = true /\ fsign 64 (m * 2 ^ 52) = false.
Proof.
  intros Hm. assert (Fm : fmag 64 (m * 2 ^ 52) = m * 2 ^ 52) by (unfold fmag; apply Z.mod_small; lia). assert (W : word 64 (m * 2 ^ 52)) by (unfold word; lia).
  assert (Fi : isfin F64 (m * 2 ^ 52) = true). { rewrite (@isfin_spec F64 _ W). cbn [fw]. rewrite Fm. change (finf 64) with (2047 * 2 ^ 52). apply Z.ltb_lt. apply Z.mul_lt_mono_pos_r; [reflexivity|lia]. }
  assert (Sg : fsign 64 (m * 2 ^ 52) = false) by (unfold fsign; apply Z.leb_gt; apply Z.lt_le_trans with (2047 * 2 ^ 52); [apply Z.mul_lt_mono_pos_r; [reflexivity|lia]|vm_compute; discriminate]).
  split; auto. rewrite (@val_mag F64 _ W Fi). cbn [fw]. rewrite Sg, Fm. unfold mval, msig, mex, mexp, mman. cbn [mw]. rewrite Z.div_mul, Z.mod_mul by lia. replace (m =? 0) with false by lia.
  rewrite Z.add_0_l. change (2 ^ 52) with (Zpower radix2 52). rewrite IZR_Zpower by lia. rewrite <- bpow_plus. f_equal. change (emin F64) with (-1074). lia.
Qed.
Lemma key_pos m y : 0 <= m < 2047 -> 0 <= y < 2 ^ 64 -> (fkey 64 y <? m * 2 ^ 52) = false -> 0 < m -> m * 2 ^ 52 <= y /\ fmag 64 y = y /\ fkey 64 y = y.
Proof.
  intros Hm Hy H Pm. unfold fkey in *. unfold fmag in *. change (64 - 1) with 63 in *. pose proof (Z.mod_pos_bound y (2 ^ 63) ltac:(reflexivity)) as B. destruct (fsign 64 y) eqn:S.
  - exfalso. apply Z.ltb_ge in H. lia.
  - unfold fsign in S. change (64 - 1) with 63 in S. apply Z.leb_gt in S. apply Z.ltb_ge in H. rewrite Z.mod_small in * by lia. lia.
Qed.
Lemma frac_bits y : word 64 y -> isfin F64 y = true -> (bpow radix2 (-12) <= val F64 y < 1)%R -> 1011 * 2 ^ 52 <= y < 1023 * 2 ^ 52 /\ fmag 64 y = y.
Proof.
  intros Wy Fy By. destruct (@pow_word 1023 ltac:(lia)) as (V1 & W1 & F1 & G1). destruct (@pow_word 1011 ltac:(lia)) as (V2 & W2 & F2 & G2).
  pose proof (@flt_val F64 _ _ Wy W1 Fy F1) as K1. pose proof (@flt_val F64 _ _ Wy W2 Fy F2) as K2. rewrite V1, Rlt_bool_true in K1 by (change (bpow radix2 (1023 - 1023)) with 1%R; lra). rewrite V2, Rlt_bool_false in K2 by (change (1011 - 1023) with (-12); lra).
  cbn [fw] in *. unfold flt in K1, K2. rewrite (fin_fnan (f := F64) Wy Fy : fnan 64 y = false) in K1, K2. rewrite (fin_fnan (f := F64) W1 F1 : fnan 64 (1023 * 2 ^ 52) = false) in K1. rewrite (fin_fnan (f := F64) W2 F2 : fnan 64 (1011 * 2 ^ 52) = false) in K2. cbn [negb andb] in K1, K2.
  change (fkey 64 (1023 * 2 ^ 52)) with (1023 * 2 ^ 52) in K1. change (fkey 64 (1011 * 2 ^ 52)) with (1011 * 2 ^ 52) in K2. destruct (@key_pos 1011 y ltac:(lia) Wy K2 ltac:(lia)) as (A & B & D). rewrite D in K1. apply Z.ltb_lt in K1. auto.
Qed.
Lemma frac_ldiff y k : 1011 * 2 ^ 52 <= y < 1023 * 2 ^ 52 -> 53 <= k <= 64 -> exists q, Z.ldiff y (Z.ones k) = q * 2 ^ 53 /\ 0 <= q <= 511.
Proof.
  intros Ry Rk. rewrite Z.ldiff_ones_r by lia. rewrite Z.shiftl_mul_pow2, Z.shiftr_div_pow2 by lia.
  exists (y / 2 ^ k * 2 ^ (k - 53)). assert (P : 2 ^ k = 2 ^ (k - 53) * 2 ^ 53) by (rewrite <- Z.pow_add_r by lia; f_equal; lia). assert (E : y / 2 ^ k * 2 ^ k = y / 2 ^ k * 2 ^ (k - 53) * 2 ^ 53) by (rewrite P at 2; lia). split; [exact E|].
  pose proof (Z.mul_div_le y (2 ^ k) (pow2_pos k ltac:(lia))) as L. rewrite Z.mul_comm, E in L. pose proof (Z.div_pos y (2 ^ k) ltac:(lia) (pow2_pos k ltac:(lia))) as D0. pose proof (pow2_pos (k - 53) ltac:(lia)) as D1.
  set (g := y / 2 ^ k * 2 ^ (k - 53)) in *. assert (0 <= g) by (apply Z.mul_nonneg_nonneg; lia). clearbody g. clear -L Ry H. lia.
Qed.
Lemma small_q q : 0 <= q <= 511 -> word 64 (q * 2 ^ 53) /\ isfin F64 (q * 2 ^ 53) = true /\ (0 <= val F64 (q * 2 ^ 53) <= / 2)%R.
Proof.
  intros Rq. assert (Wt : word 64 (q * 2 ^ 53)) by (unfold word; lia). assert (Mt : fmag 64 (q * 2 ^ 53) = q * 2 ^ 53) by (unfold fmag; apply Z.mod_small; lia).
  assert (Ft : isfin F64 (q * 2 ^ 53) = true). { rewrite (@isfin_spec F64 _ Wt). cbn [fw]. rewrite Mt. change (finf 64) with (2047 * 2 ^ 52). clear -Rq. lia. }
  assert (St : fsign 64 (q * 2 ^ 53) = false) by (unfold fsign; change (64 - 1) with 63; clear -Rq; lia). split; auto. split; auto. split.
  - rewrite (@val_mag F64 _ Wt Ft). cbn [fw]. rewrite St. apply mval_ge0. rewrite Mt. clear -Rq. lia.
  - destruct (@pow_word 1022 ltac:(lia)) as (V3 & W3 & F3 & G3). change (/ 2)%R with (bpow radix2 (1022 - 1023)). rewrite <- V3. assert (L := @flt_val F64 _ _ W3 Wt F3 Ft). cbn [fw] in L. unfold flt in L. replace (fkey 64 (1022 * 2 ^ 52) <? fkey 64 (q * 2 ^ 53)) with false in L. 2:{ unfold fkey. rewrite G3, St, Mt. change (fmag 64 (1022 * 2 ^ 52)) with (1022 * 2 ^ 52). clear -Rq. lia. }
    rewrite andb_false_r in L. symmetry in L. destruct (Rlt_bool_spec (val F64 (1022 * 2 ^ 52)) (val F64 (q * 2 ^ 53))); [discriminate|auto].
Qed.
Lemma trunc1_frac c y : sse3 c = false -> word 64 y -> isfin F64 y = true -> (bpow radix2 (-12) <= val F64 y < 1)%R -> let t := trunc1 c y in word 64 t /\ isfin F64 t = true /\ (0 <= val F64 t <= / 2)%R.
Proof.
  intros C Wy Fy By. destruct (frac_bits Wy Fy By) as [Ry My]. cbv zeta. unfold trunc1. rewrite (trunc1_field Wy), C, My. cbv zeta. unfold mexp. cbn [mw]. clear By Fy Wy My. set (m := y / 2 ^ 52).
  assert (Rm : 1011 <= m < 1023). { unfold m. split; [apply Z.div_le_lower_bound; [reflexivity|clear -Ry; lia]|apply Z.div_lt_upper_bound; [reflexivity|clear -Ry; lia]]. } clearbody m.
  replace (m - 1023 + 12 <? 0) with false by (clear -Rm; lia). unfold srl64. replace (m - 1023 + 12 <? 64) with true by (clear -Rm; lia).
  replace ((2 ^ 64 - 1) / 2 ^ (m - 1023 + 12)) with (Z.ones (64 - (m - 1023 + 12))). 2:{ change (2 ^ 64 - 1) with (Z.ones 64). rewrite Z.ones_div_pow2 by (clear -Rm; lia). reflexivity. }
  destruct (@frac_ldiff y (64 - (m - 1023 + 12)) Ry ltac:(clear -Rm; lia)) as (q & -> & Rq). now apply small_q.
Qed.
Section Oct.
Context {X : xty} (HX : xty_ok X) (HF : is_int (xT X) = false) (fm : bool) (nn : nans).
Local Notation f := (xf X).
Lemma cvtt_small y n : word (fw f) y -> isfin f y = true -> (0 <= val f y < 8388608)%R -> Ztrunc (val f y) = n -> cvtt1 (X := X) nn y = n /\ 0 <= n < 2 ^ 23.
Proof.
  intros Wy Fy By En. assert (Rn : 0 <= n < 2 ^ 23).
  { subst n. rewrite Ztrunc_floor by lra. split; [apply Zfloor_lub; lra|]. apply lt_IZR. eapply Rle_lt_trans; [apply Zfloor_lb|]. change (2 ^ 23) with 8388608. lra. }
  split; auto. unfold cvtt1. pose proof (xw_fw HX HF) as Ew. destruct (w_cases HX HF) as [Q | Q]; rewrite Q in *; cbn [Z.eqb Pos.eqb] in *.
  - assert (Ef : f = F32) by (destruct f; [reflexivity|discriminate Ew]). rewrite Ef in *. rewrite (@fto_int_ok nn F32 mode_ZR 32 y) by (try lia; auto; cbn [round_mode]; rewrite En; lia). cbn [round_mode]. rewrite En. unfold wrap. apply Z.mod_small. lia.
  - assert (Ef : f = F64) by (destruct f; [discriminate Ew|reflexivity]). rewrite Ef in *.
    assert (K : forall t, word 64 t -> rounds_to F64 Ztrunc y t -> f64_i64l nn t = n).
    { intros t Wt Rt. unfold rounds_to in Rt. rewrite (fin_nn _ Fy), Fy in Rt. destruct Rt as (Ft & Vt & _). rewrite En in Vt.
      rewrite (f64_i64l_ok nn (x := t)); auto. { rewrite Vt, Zrnd_IZR by apply valid_rnd_N. unfold wrap. apply Z.mod_small. lia. } rewrite Vt. rewrite <- opp_IZR. split; apply IZR_le; lia. }
    destruct (is256 X).
    + apply K. { apply (@fround_word nn F64). } apply (@fround_ok F64 nn mode_ZR); auto.
    + destruct (sse3 (xc X)) eqn:C3. { apply K. { apply (@trunc1_word X HF). exact Wy. } apply trunc1_ok; auto. }
      destruct (Rlt_le_dec (val F64 y) (bpow radix2 (-12))) as [H1|H1]. { apply K. { apply (@trunc1_word X HF). exact Wy. } apply trunc1_ok; auto. right. intros _. left. now rewrite Rabs_pos_eq by lra. }
      destruct (Rlt_le_dec (val F64 y) 1) as [H2|H2]. 2:{ apply K. { apply (@trunc1_word X HF). exact Wy. } apply trunc1_ok; auto. right. intros _. right. now rewrite Rabs_pos_eq by lra. }
      destruct (trunc1_frac (xc X) C3 Wy Fy (conj H1 H2)) as (Wt & Ft & Bt). rewrite (f64_i64l_ok nn (x := trunc1 (xc X) y)); auto. 2:{ rewrite <- opp_IZR. split; [eapply Rle_trans; [|apply Bt]; apply IZR_le; lia|eapply Rle_trans; [apply Bt|]; apply Rle_trans with 1%R; [lra|apply IZR_le; lia]]. }
      assert (E0 : n = 0). { rewrite <- En, Ztrunc_floor by lra. apply Zfloor_imp. cbn [Z.add]. lra. } rewrite E0.
      replace (Znearest (fun x0 : Z => negb (Z.even x0)) (val F64 (trunc1 (xc X) y))) with 0; [reflexivity|]. symmetry. destruct (Rle_lt_or_eq_dec _ _ (proj2 Bt)) as [L|L].
      * apply Znearest_imp. rewrite Rminus_0_r, Rabs_pos_eq by lra. lra.
      * rewrite L. unfold Znearest. replace (Zfloor (/ 2)) with 0 by (symmetry; apply Zfloor_imp; cbn [Z.add]; lra). rewrite Rminus_0_r, Rcompare_Eq by lra. reflexivity.
Qed.
Lemma oct_ok a : word (fw f) a -> isfin f a = true -> (0 <= val f a <= 4194304)%R ->
  exists j, oct1 (X := X) nn a = j /\ 0 <= j <= 5341000 /\ Z.even j = true /\ (Rabs (val f a - IZR j * (PI / 4)) <= rmax f)%R.
Proof.
  intros Wa Fa Ba. destruct (pio4_ok f) as (Bp & Dp & Fp & Wp). pose proof (xw_fw HX HF) as Ew. unfold oct1. rewrite Ew. set (pc := c_pio4 (fw f)) in *. set (p := val f pc) in *.
  assert (Nz : ~ iszero f pc) by (intros H; assert (V0 : val f pc = 0%R) by (destruct H as [-> | ->]; unfold val; now rewrite dec_szero); fold p in V0; lra).
  assert (C : correct_round f (val f a / p) (fdiv nn f a pc)). { pose proof (div_ok nn Wa Wp) as (_ & D & _). destruct (D Fa Fp Nz) as [D' _]. exact D'. }
  set (y := fdiv nn f a pc) in *. assert (Wy : word (fw f) y) by apply fdiv_word.
  set (Q := (val f a / p)%R) in *. assert (EQ : (Q * p = val f a)%R) by (unfold Q; field; lra).
  assert (BQ : (0 <= Q <= 5340760)%R). { split; [unfold Q; apply Rmult_le_pos; [lra|]; left; apply Rinv_0_lt_compat; lra|]. apply Rmult_le_reg_r with p; [lra|]. rewrite EQ. lra. }
  pose proof (rnd_rel f Q) as RR. rewrite (Rabs_pos_eq Q) in RR by lra.
  assert (UB : (bpow radix2 (- prec f) <= / 16777216 /\ 0 <= bpow radix2 (- prec f))%R).
  { split; [|apply bpow_ge_0]. change (/ 16777216)%R with (bpow radix2 (-24)). apply bpow_le. destruct f; cbn; lia. }
  assert (EB : (bpow radix2 (emin f - 1) <= / 16777216)%R). { change (/ 16777216)%R with (bpow radix2 (-24)). apply bpow_le. destruct f; cbn; lia. }
  assert (R1 : (Rabs (rnd f Q - Q) <= 32 / 100)%R). { eapply Rle_trans; [exact RR|]. assert (bpow radix2 (- prec f) * Q <= / 16777216 * 5340760)%R by (apply Rmult_le_compat; lra). lra. }
  assert (P0 : (0 <= rnd f Q)%R). { unfold rnd. rewrite <- (round_0 radix2 (SpecFloat.fexp (prec f) (emax f)) ZnearestE). apply round_le; [apply (fexp_correct _ _ (Hprec f))|apply valid_rnd_N|lra]. }
  apply Rabs_le_inv in R1. unfold correct_round in C. rewrite Rlt_bool_true in C.
  2:{ rewrite Rabs_pos_eq by auto. apply Rlt_le_trans with (bpow radix2 23). { change (bpow radix2 23) with 8388608%R. lra. } apply bpow_le. destruct f; cbn; lia. }
  destruct C as [Fy Vy]. set (n := Ztrunc (val f y)).
  destruct (@cvtt_small y n Wy Fy ltac:(rewrite Vy; lra) eq_refl) as (Ec & Rn). rewrite Ec.
  assert (Bn : (IZR n <= rnd f Q < IZR n + 1)%R). { unfold n. rewrite Vy, Ztrunc_floor by auto. split; [apply Zfloor_lb|apply Zfloor_ub]. }
  assert (Hw : 32 <= fw f) by (destruct f; cbn; lia). assert (Pw : 2 ^ 24 <= 2 ^ fw f) by (apply Z.pow_le_mono_r; lia).
  rewrite (Z.mod_small (n + 1)) by lia. rewrite land_m2 by lia. set (j := 2 * ((n + 1) / 2)). exists j. split; auto.
  assert (Rj : n <= j <= n + 1) by (unfold j; pose proof (Z_div_mod_eq_full (n + 1) 2); pose proof (Z.mod_pos_bound (n + 1) 2 ltac:(lia)); lia).
  assert (N5 : n <= 5340761). { apply le_IZR. lra. }
  split; [lia|]. split. { unfold j. rewrite Z.even_mul. reflexivity. }
  assert (Jr : (IZR n <= IZR j <= IZR n + 1)%R) by (rewrite <- (plus_IZR n 1); split; apply IZR_le; lia).
  assert (J5 : (0 <= IZR j <= 5341000)%R) by (split; apply IZR_le; lia).
  assert (DQ : (Rabs (Q - IZR j) <= 1 + (bpow radix2 (- prec f) * Q + bpow radix2 (emin f - 1)))%R). { apply Rabs_le_inv in RR. apply Rabs_le. lra. }
  clear R1. replace (val f a - IZR j * (PI / 4))%R with ((Q - IZR j) * p + IZR j * (p - PI / 4))%R by (rewrite <- EQ; ring).
  eapply Rle_trans; [apply Rabs_triang|]. rewrite !Rabs_mult, (Rabs_pos_eq p), (Rabs_pos_eq (IZR j)) by lra.
  assert (A1 : (Rabs (Q - IZR j) * p <= (1 + (bpow radix2 (- prec f) * Q + bpow radix2 (emin f - 1))) * p)%R) by (apply Rmult_le_compat_r; lra).
  assert (A2 : ((1 + (bpow radix2 (- prec f) * Q + bpow radix2 (emin f - 1))) * p = p + bpow radix2 (- prec f) * val f a + bpow radix2 (emin f - 1) * p)%R) by (rewrite <- EQ; ring).
  assert (A3 : (IZR j * Rabs (p - PI / 4) <= 5341000 * bpow radix2 (match f with F32 => -25 | F64 => -54 end))%R) by (apply Rmult_le_compat; try apply Rabs_pos; lra).
  assert (A4 : (bpow radix2 (- prec f) * val f a <= bpow radix2 (- prec f) * 4194304)%R) by (apply Rmult_le_compat_l; lra).
  assert (A5 : (bpow radix2 (emin f - 1) * p <= / 16777216 * 1)%R) by (apply Rmult_le_compat; try apply bpow_ge_0; lra).
  rewrite A2 in A1. clear -Bp A1 A3 A4 A5. set (G := (bpow radix2 (emin f - 1) * p)%R) in *. set (H := (bpow radix2 (- prec f) * val f a)%R) in *. set (K := (Rabs (Q - IZR j) * p)%R) in *. set (L := (IZR j * Rabs (p - PI / 4))%R) in *.
  clearbody G H K L p. destruct f; cbn [rmax] in *.
  - change (bpow radix2 (-25)) with (/ 33554432)%R in A3. change (bpow radix2 (- prec F32)) with (/ 16777216)%R in *. lra.
  - change (bpow radix2 (-54)) with (/ 18014398509481984)%R in A3. change (bpow radix2 (- prec F64)) with (/ 9007199254740992)%R in *. lra.
Qed.
(** the octant as a floating-point number *)
Lemma cvtf_ok j : 0 <= j <= 5341000 -> f = F32 \/ good64 (X := X) = true \/ j < 2 ^ 16 -> let y := cvtf1 (X := X) nn j in word (fw f) y /\ isfin f y = true /\ val f y = IZR j.
Proof.
  intros Hj G. cbv zeta. pose proof (xw_fw HX HF) as Ew. assert (K : forall y, nearest_float f j y -> word (fw f) y /\ isfin f y = true /\ val f y = IZR j).
  { intros y (A & B & C & _). split; auto. split; auto. rewrite C. apply rnd_int_exact. apply Z.le_trans with (2 ^ 24); [lia|]. apply Z.pow_le_mono_r; [lia|]. destruct f; vm_compute; discriminate. }
  apply K. clear K. unfold cvtf1. destruct (w_cases HX HF) as [Q | Q]; rewrite Q in *; cbn [Z.eqb Pos.eqb].
  - assert (Ef : f = F32) by (destruct f; [reflexivity|discriminate Ew]). rewrite Ef in *. replace (sgn 32 j) with j. { apply fof_int_ok. lia. } unfold sgn. replace (j <? 2 ^ (32 - 1)) with true by lia. reflexivity.
  - assert (Ef : f = F64) by (destruct f; [discriminate Ew|reflexivity]). rewrite Ef in *. destruct (good64 (X := X)).
    + replace j with (sgn 64 j) at 1. { apply i64l_ok. unfold word. lia. } unfold sgn. replace (j <? 2 ^ (64 - 1)) with true by lia. reflexivity.
    + destruct G as [G | [G | G]]; try discriminate. pose proof (@i64l_sse4_val nn j ltac:(unfold word; lia)) as V.
      replace (j mod 2 ^ 48 + 2 ^ 16 * wrap 32 (sgn 32 (j mod 2 ^ 32) / 2 ^ 16)) with j in V; auto.
      rewrite !Z.mod_small by lia. unfold sgn. replace (j <? 2 ^ (32 - 1)) with true by lia. rewrite Z.div_small by lia. change (wrap 32 0) with 0. lia.
Qed.
(** one step of the reduction *)
Lemma fstep y d p s : word (fw f) y -> word (fw f) d -> word (fw f) p -> isfin f y = true -> isfin f d = true -> isfin f p = true ->
  (s = val f y * val f d + val f p)%R -> (Rabs (val f y * val f d) <= 1073741824)%R -> (Rabs s <= 1073741824)%R ->
  let t := fmadd1 (X := X) nn fm y d p in
  word (fw f) t /\ isfin f t = true /\ exists ep, (Rabs ep <= if fm then 0 else uu f * Rabs (val f y * val f d) + UU)%R /\ (rnd f (val f y * val f d) = (val f y * val f d)%R -> ep = 0%R) /\
    (Rabs (val f t - (s + ep)) <= uu f * Rabs (s + ep) + UU)%R.
Proof.
  intros Wy Wd Wp Fy Fd Fp Es BP Bs. cbv zeta. unfold fmadd1, uu. set (P := (val f y * val f d)%R) in *. pose proof UU_pos as UP.
  assert (EU : (bpow radix2 (emin f - 1) <= UU)%R) by (unfold UU; apply bpow_le; destruct f; cbn; lia).
  assert (U24 : (0 <= bpow radix2 (- prec f) <= / 16777216)%R). { split; [apply bpow_ge_0|]. change (/ 16777216)%R with (bpow radix2 (-24)). apply bpow_le. destruct f; cbn; lia. }
  assert (U1 : (UU <= 1)%R) by (unfold UU; change 1%R with (bpow radix2 0); apply bpow_le; lia).
  assert (NR : forall q, (Rabs q <= 4294967296)%R -> (Rabs (rnd f q) < bpow radix2 (emax f))%R).
  { intros q Hq. pose proof (rnd_rel f q) as RR. apply Rle_lt_trans with 8589934592%R.
    - replace (rnd f q) with (q + (rnd f q - q))%R by ring. eapply Rle_trans; [apply Rabs_triang|]. assert (bpow radix2 (- prec f) * Rabs q <= / 16777216 * 4294967296)%R by (apply Rmult_le_compat; try apply Rabs_pos; lra). lra.
    - apply Rlt_le_trans with (bpow radix2 34). { change (bpow radix2 34) with 17179869184%R. lra. } apply bpow_le. destruct f; cbn; lia. }
  destruct fm.
  - split; [apply ffma_word|]. pose proof (fma_ok nn Wy Wd Wp (conj Fy (conj Fd Fp))) as C. fold P in C. rewrite <- Es in C. unfold correct_round in C. rewrite Rlt_bool_true in C by (apply NR; lra). destruct C as [F V]. split; auto.
    exists 0%R. rewrite Rabs_R0. split; [lra|]. split; auto. rewrite Rplus_0_r, V. eapply Rle_trans; [apply rnd_rel|]. lra.
  - split; [apply fadd_word|]. assert (Wm : word (fw f) (fmul nn f y d)) by apply fmul_word.
    pose proof (mul_ok nn Wy Wd) as (_ & C & _). destruct (C Fy Fd) as [C1 _]. clear C. fold P in C1. unfold correct_round in C1. rewrite Rlt_bool_true in C1 by (apply NR; lra). destruct C1 as [Fm Vm].
    pose proof (add_ok nn Wm Wp) as (_ & C & _). destruct (C Fm Fp) as [C1 _]. clear C. rewrite Vm in C1. pose proof (rnd_rel f P) as RP.
    assert (E1 : (Rabs (rnd f P - P) <= bpow radix2 (- prec f) * Rabs P + UU)%R) by lra.
    assert (E2 : (rnd f P + val f p = s + (rnd f P - P))%R) by (rewrite Es; ring). rewrite E2 in C1. set (ep := (rnd f P - P)%R) in *.
    assert (B2 : (Rabs (s + ep) <= 4294967296)%R). { eapply Rle_trans; [apply Rabs_triang|]. assert (bpow radix2 (- prec f) * Rabs P <= / 16777216 * 1073741824)%R by (apply Rmult_le_compat; try apply Rabs_pos; lra). lra. }
    unfold correct_round in C1. rewrite Rlt_bool_true in C1 by (apply NR; exact B2). destruct C1 as [F V]. split; auto. exists ep. split; [exact E1|]. split. { intros H. unfold ep. rewrite H. ring. }
    rewrite V. eapply Rle_trans; [apply rnd_rel|]. lra.
Qed.
End Oct.
Close Scope Z_scope.
