(** ilogb and logb: lane functions and what they compute. *)
From Coq Require Import ZifyBool ZifyNat Reals Lra.
From Flocq Require Import Core IEEE754.BinarySingleNaN IEEE754.Binary.
From Verif Require Import Base Cxx Spec GenericProofs X86Vec X86 X86Lemmas X86Proofs X86Ops X86Shift Fp FpLemmas FpOps FMath FMathProofs FLane FFields FManip FManipLanes FScalbn Cvt CvtProofs Logb.
Set Implicit Arguments.
Local Open Scope Z_scope.

Lemma subs16_range k a b : 0 <= subs16 k a b < 2 ^ (16 * Z.of_nat k).
Proof.
  revert a b. induction k as [|k IH]; intros a b. { cbn. lia. }
  cbn [subs16]. replace (16 * Z.of_nat (S k)) with (16 + 16 * Z.of_nat k) by lia. rewrite Z.pow_add_r by lia.
  specialize (IH (a / 2 ^ 16) (b / 2 ^ 16)). pose proof (Z.mod_pos_bound a (2 ^ 16) ltac:(lia)). pose proof (Z.mod_pos_bound b (2 ^ 16) ltac:(lia)).
  set (r := subs16 _ _ _) in *. set (p := 2 ^ (16 * Z.of_nat k)) in *. lia.
Qed.
Lemma subs16_small k a b : (0 < k)%nat -> 0 <= a < 2 ^ 16 -> 0 <= b < 2 ^ 16 -> subs16 k a b = Z.max 0 (a - b).
Proof.
  intros Hk Ha Hb. destruct k as [|k]; [lia|]. cbn [subs16]. rewrite !Z.mod_small, !Z.div_small by auto.
  assert (Q : subs16 k 0 0 = 0). { clear. induction k as [|k IH]; auto. cbn [subs16]. rewrite Z.mod_0_l, Z.div_0_l by lia. rewrite IH. reflexivity. }
  rewrite Q. lia.
Qed.

(** clearing the bits of x >> e keeps the leading bit of x *)
Lemma ldiff_shift_log x e : 0 < x -> 0 < e -> 2 ^ Z.log2 x <= Z.ldiff x (lshr_bits e x) < 2 ^ (Z.log2 x + 1).
Proof.
  intros Hx He. pose proof (Z.log2_nonneg x) as Hl. unfold lshr_bits. rewrite <- Z.shiftr_div_pow2 by lia.
  assert (P0 : 0 <= Z.ldiff x (Z.shiftr x e)) by (apply Z.ldiff_nonneg; left; lia).
  assert (B : Z.testbit (Z.ldiff x (Z.shiftr x e)) (Z.log2 x) = true).
  { rewrite Z.ldiff_spec, Z.shiftr_spec, Z.bit_log2 by lia. rewrite (Z.bits_above_log2 x) by lia. reflexivity. }
  assert (P : 0 < Z.ldiff x (Z.shiftr x e)). { destruct (Z.eq_dec (Z.ldiff x (Z.shiftr x e)) 0) as [E|E]; [|lia]. rewrite E, Z.bits_0 in B. discriminate. }
  set (y := Z.ldiff x (Z.shiftr x e)) in *.
  assert (U : Z.log2 y = Z.log2 x).
  { apply Z.log2_bits_unique; auto. intros m Hm. unfold y. rewrite Z.ldiff_spec, (Z.bits_above_log2 x m) by lia. reflexivity. }
  pose proof (Z.log2_spec y P) as S. rewrite U in S. unfold Z.succ in S. exact S.
Qed.

(** conversion of a lane *)
Definition i64_goodb (X : xty) : bool := if is256 X then avx2 (xc X) else negb (sse41 (xc X)).
Lemma i64_goodb_ok X : i64_goodb X = true <-> @i64_good X.
Proof. unfold i64_goodb, i64_good. destruct (is256 X), (avx2 (xc X)), (sse41 (xc X)); cbn; intuition congruence. Qed.
Definition cvl (X : xty) (nn : nans) (x : Z) : Z :=
  if (esz (xT X) =? 4)%nat then fof_int F32 (sgn 32 x) else if i64_goodb X then i64l nn x else i64l_sse4 nn x.
Lemma xT_float X : xty_ok X -> is_int (xT X) = false -> (esz (xT X) = 4%nat /\ xf X = F32 /\ xw X = 32) \/ (esz (xT X) = 8%nat /\ xf X = F64 /\ xw X = 64).
Proof.
  intros (_ & ET & _) HF. destruct (@float_w X ET HF) as [E|E]; unfold xf; rewrite E; [left|right]; (split; [unfold xw, ew in E; lia|split; reflexivity]).
Qed.
Section Lane.
Context (X : xty) (nn : nans) (HX : xty_ok X) (HF : is_int (xT X) = false) {k : nat}.
Local Notation w := (xw X).
Local Notation f := (xf X).
Lemma cvl_word x : word w (cvl X nn x).
Proof.
  unfold cvl. destruct (xT_float HX HF) as [(E & _ & Ew) | (E & _ & Ew)]; rewrite E, Ew; cbn [Nat.eqb].
  - apply (@enc_word F32).
  - destruct (i64_goodb X); apply (@enc_word F64).
Qed.
Lemma l_cvt v x : L X k v x -> L X k (cvt_to_f X true nn v) (cvl X nn x).
Proof.
  intros Hx. assert (E : cvt_to_f X true nn v = map (cvl X nn) v).
  { destruct (xT_float HX HF) as [(E & _ & Ew) | (E & _ & Ew)].
    - rewrite k_i32 by auto. apply map_ext. intros a. unfold cvl. rewrite E. reflexivity.
    - unfold cvl. rewrite E. cbn [Nat.eqb]. destruct (i64_goodb X) eqn:G.
      + rewrite (@k_i64 X HX nn v E); auto. now apply i64_goodb_ok. exact (L_wf Hx).
      + rewrite (@k_i64_bad X HX nn v E); auto. intros B. apply i64_goodb_ok in B. congruence. exact (L_wf Hx). }
  rewrite E. apply l_map; auto. intros. apply cvl_word.
Qed.
Definition ev1 (x : Z) : Z :=
  let exp := lshr_bits (mant w) x in
  let c := lshr_bits (mant w) (cvl X nn (Z.ldiff x (lshr_bits (expbits w) x))) in
  let off := (subs16 (esz (xT X) / 2) (wrap w (ilogb_bias w)) c - wrap w (expbits w + 1)) mod 2 ^ w in
  ((exp - (if exp =? 0 then off else 0)) mod 2 ^ w - wrap w (exp_off w)) mod 2 ^ w.
Lemma l_subs a b x y : L X k a x -> L X k b y -> L X k (v_subs16 X a b) (subs16 (esz (xT X) / 2) x y).
Proof.
  intros Ha Hb. unfold v_subs16. apply l_vmap2; auto. intros. unfold word.
  destruct (xT_float HX HF) as [(E & _ & Ew) | (E & _ & Ew)]; rewrite E, Ew; [change (4 / 2)%nat with 2%nat | change (8 / 2)%nat with 4%nat]; eapply subs16_range.
Qed.
Lemma expbits_pos : 0 <= expbits w. Proof. unfold expbits. destruct (w =? 32); lia. Qed.
Lemma l_ev v x : L X k v x -> L X k (eval_ilogb X nn v) (ev1 x).
Proof.
  intros Hx. pose proof (L_lt Hx) as Hk. pose proof (mant_pos X HF) as Hm. pose proof expbits_pos as He.
  unfold eval_ilogb, ev1. cbv zeta.
  assert (H1 := li_shiftr Hm Hx).
  assert (H2 := lmi_eq HX H1 (li_zero HX Hk)).
  assert (H3 := li_shiftr Hm (l_cvt (l_andnot HX (li_shiftr He Hx) Hx))).
  assert (H4 := l_subs (li_ifill HX HF (ilogb_bias w) Hk) H3).
  assert (H5 := li_sub HX (ieee nn) H4 (li_ifill HX HF (expbits w + 1) Hk)).
  exact (li_sub HX (ieee nn) (li_sub HX (ieee nn) H1 (l_selr HX H2 H5)) (li_ifill HX HF (exp_off w) Hk)).
Qed.
Definition ilogb1 (il0 iln x : Z) : Z :=
  let y := ev1 (fmag w x) in
  let y := if feq w (fmag w x) 0 then wrap w il0 else y in
  let y := if feq w (fmag w x) (finf w) then wrap w (2 ^ (w - 1) - 1) else y in
  if fnan w x || fnan w x then wrap w iln else y.
Lemma l_inf : (k < ext X)%nat -> L X k (v_fill X (finf w)) (finf w).
Proof. intros Hk. apply l_fill; auto. rewrite (xw_fw HX HF). apply finf_word. Qed.
Lemma k_ilogb_lane il0 iln v x : L X k v x -> L X k (k_ilogb X nn il0 iln v) (ilogb1 il0 iln x).
Proof.
  intros Hx. pose proof (L_lt Hx) as Hk. unfold k_ilogb, ilogb1. cbv zeta. assert (Ha := lf_abs HX HF Hx).
  assert (H1 := li_blend HX (l_ev Ha) (li_ifill HX HF il0 Hk) (lmf_eq HX HF Ha (l_zero HX Hk))).
  assert (H2 := li_blend HX H1 (li_ifill HX HF (2 ^ (w - 1) - 1) Hk) (lm_cmp (feq w) Ha (l_inf Hk))).
  exact (li_blend HX H2 (li_ifill HX HF iln Hk) (lm_unord Hx Hx)).
Qed.
Definition logb1 (x : Z) : Z :=
  let a := fmag w x in
  let y := cvl X nn (ev1 a) in
  let y := if feq w a 0 then fdiv nn f (2 ^ (w - 1) + fone w) (fsub nn f a a) else y in
  if feq w a (finf w) || (fnan w x || fnan w x) then fmul nn f x x else y.
Lemma neg_one_word : word w (2 ^ (w - 1) + fone w).
Proof. destruct (@w_cases X HX HF) as [-> | ->]; unfold word; cbn; lia. Qed.
Lemma k_logb_lane v x : L X k v x -> L X k (k_logb X nn v) (logb1 x).
Proof.
  intros Hx. pose proof (L_lt Hx) as Hk. unfold k_logb, logb1, except_divzero. cbv zeta. assert (Ha := lf_abs HX HF Hx).
  assert (H1 := l_ifblend HX (l_cvt (l_ev Ha)) (lf_div HX HF nn (l_fill Hk neg_one_word) (lf_sub HX HF nn Ha Ha)) (lmf_eq HX HF Ha (l_zero HX Hk))).
  exact (l_ifblend HX H1 (lf_mul HX HF nn Hx Hx) (lm_or HX (lm_cmp (feq w) Ha (l_inf Hk)) (lm_unord Hx Hx))).
Qed.
End Lane.

(** *** What they compute *)
Lemma sgn_sub2 w a b c : 0 < w -> - 2 ^ (w - 1) <= a - b - c < 2 ^ (w - 1) -> sgn w (((a - b) mod 2 ^ w - c) mod 2 ^ w) = a - b - c.
Proof. intros Hw H. rewrite Zminus_mod_idemp_l. change ((a - b - c) mod 2 ^ w) with (wrap w (a - b - c)). now apply sgn_wrap. Qed.

Section Meaning.
Context (X : xty) (nn : nans) (HX : xty_ok X) (HF : is_int (xT X) = false).
Local Notation w := (xw X).
Local Notation f := (xf X).
Local Notation off := (2 ^ (eb f - 1) - 1).
Lemma consts : mant w = mw f /\ expbits w = eb f /\ wrap w (exp_off w) = off /\ wrap w (expbits w + 1) = eb f + 1 /\ wrap w (ilogb_bias w) = off + (w - 1).
Proof. destruct (xT_float HX HF) as [(_ & -> & ->) | (_ & -> & ->)]; repeat split. Qed.

Lemma ev1_normal m : 0 <= m -> 1 <= mexp f m < 2 ^ eb f -> sgn w (ev1 X nn m) = mexp f m - off.
Proof.
  intros Hm He. unfold ev1. destruct consts as (-> & -> & -> & _). unfold lshr_bits at 1. fold (mexp f m).
  change (lshr_bits (mw f) m) with (mexp f m). replace (mexp f m =? 0) with false by lia. rewrite sgn_sub2; [lia| |].
  - destruct (@w_cases X HX HF) as [-> | ->]; lia.
  - destruct (xT_float HX HF) as [(_ & Ef & ->) | (_ & Ef & ->)]; rewrite Ef in *; cbn in He |- *; lia.
Qed.
(** the biased exponent of a positive integer converted exactly *)
Lemma int_exp n y : 0 < n < 2 ^ prec f -> nearest_float f n y -> lshr_bits (mw f) y = Z.log2 n + off.
Proof.
  intros Hn (Wy & Fy & Vy & Sy). rewrite rnd_int_exact in Vy by lia. replace (n <? 0) with false in Sy by lia.
  assert (Ey : fmag (fw f) y = y). { destruct (word_split Wy) as [_ S]. rewrite Sy in S. lia. }
  assert (P1 : (1 <= IZR n)%R) by (apply IZR_le; lia).
  assert (Hk := Z.log2_spec n (proj1 Hn)). pose proof (Z.log2_nonneg n) as Hl.
  assert (Nz : mexp f (fmag (fw f) y) <> 0).
  { intros Z0. rewrite (fields_val0 Wy Z0), Sy in Vy. cbn [sgnr] in Vy. pose proof (mman_range (f := f) (fmag (fw f) y)) as Rm.
    assert (H : (IZR (mman f (fmag (fw f) y)) * bpow radix2 (emin f) < 1)%R).
    { apply Rlt_le_trans with (IZR (2 ^ mw f) * bpow radix2 (emin f))%R. { apply Rmult_lt_compat_r. apply bpow_gt_0. apply IZR_lt. lia. }
      change (2 ^ mw f) with (Zpower radix2 (mw f)). rewrite IZR_Zpower by (destruct f; cbn; lia). rewrite <- bpow_plus. change 1%R with (bpow radix2 0). apply bpow_le. destruct f; unfold emin, emax, prec; cbn; lia. }
    lra. }
  rewrite (fields_val Wy Fy Nz), Sy in Vy. cbn [sgnr] in Vy. set (e := mexp f (fmag (fw f) y)) in *. set (m := mman f (fmag (fw f) y)) in *.
  pose proof (@sig_bounds f m (e + emin f - 1) (mman_range (f := f) _)) as B. rewrite Vy in B.
  assert (K : (bpow radix2 (Z.log2 n) <= IZR n < bpow radix2 (Z.log2 n + 1))%R).
  { rewrite <- !IZR_Zpower by lia. split; [apply IZR_le|apply IZR_lt]; [exact (proj1 Hk)|]. unfold Z.succ in Hk. exact (proj2 Hk). }
  change (lshr_bits (mw f) y) with (mexp f y). rewrite <- Ey. fold e.
  assert (A1 : mw f + (e + emin f - 1) < Z.log2 n + 1). { apply (lt_bpow radix2). lra. }
  assert (A2 : Z.log2 n < mw f + 1 + (e + emin f - 1)). { apply (lt_bpow radix2). lra. }
  assert (Q : mw f + emin f - 1 = - off) by (clear; destruct f; reflexivity). lia.
Qed.
Lemma cvl_small n : 0 <= n < 2 ^ (w - 1) -> (w = 32 \/ i64_good (X := X)) -> nearest_float f n (cvl X nn n).
Proof.
  intros Hn G. unfold cvl. destruct (xT_float HX HF) as [(E & -> & Ew) | (E & -> & Ew)]; rewrite E; cbn [Nat.eqb]; rewrite Ew in Hn.
  - assert (S : sgn 32 n = n). { unfold sgn. replace (n <? 2 ^ (32 - 1)) with true by lia. reflexivity. } rewrite S. apply fof_int_ok. lia.
  - destruct G as [G|G]; [lia|]. rewrite (proj2 (i64_goodb_ok X) G).
    assert (S : sgn 64 n = n). { unfold sgn. replace (n <? 2 ^ (64 - 1)) with true by lia. reflexivity. } rewrite <- S at 1. apply i64l_ok. unfold word. lia.
Qed.
Lemma ev1_subnormal m : 0 < m -> mexp f m = 0 -> (w = 32 \/ i64_good (X := X)) -> sgn w (ev1 X nn m) = Z.log2 m + emin f.
Proof.
  intros Hm He G. pose proof (mag_split (f := f) m) as Ms. rewrite He in Ms. pose proof (mman_range (f := f) m) as Rm.
  assert (Lm : m < 2 ^ mw f) by lia. assert (El : Z.log2 m < mw f) by (apply Z.log2_lt_pow2; lia). pose proof (Z.log2_nonneg m) as Hl.
  unfold ev1. destruct consts as (-> & -> & -> & -> & ->). change (lshr_bits (mw f) m) with (mexp f m). rewrite He. change (0 =? 0) with true. cbv iota zeta.
  pose proof (@ldiff_shift_log m (eb f) Hm ltac:(destruct f; cbn; lia)) as D. set (d := Z.ldiff m (lshr_bits (eb f) m)) in *.
  assert (Hd : 0 < d < 2 ^ mw f). { split. pose proof (Z.pow_pos_nonneg 2 (Z.log2 m)); lia. apply Z.lt_le_trans with (2 ^ (Z.log2 m + 1)); [lia|]. apply Z.pow_le_mono_r; lia. }
  assert (Ed : Z.log2 d = Z.log2 m). { apply Z.log2_unique; auto. }
  assert (Ep : 2 ^ mw f < 2 ^ prec f /\ 2 ^ mw f < 2 ^ (w - 1)).
  { destruct (xT_float HX HF) as [(_ & -> & ->) | (_ & -> & ->)]; cbn; lia. }
  rewrite (@int_exp d) by (try lia; apply cvl_small; auto; lia). rewrite Ed.
  assert (Hw : w = 32 \/ w = 64) by (apply w_cases; auto).
  rewrite subs16_small.
  2:{ destruct (xT_float HX HF) as [(-> & _) | (-> & _)]; cbn; lia. }
  2,3: destruct (xT_float HX HF) as [(_ & Ef & Ew) | (_ & Ef & Ew)]; rewrite ?Ew, Ef in *; cbn in El |- *; lia.
  assert (Hs : Z.max 0 (off + (w - 1) - (Z.log2 m + off)) - (eb f + 1) = mw f - 1 - Z.log2 m /\ 0 <= mw f - 1 - Z.log2 m < 2 ^ w).
  { clear - HX HF El Hl. set (l := Z.log2 m) in *. clearbody l. destruct (xT_float HX HF) as [(_ & Ef & Ew) | (_ & Ef & Ew)]; rewrite ?Ew, Ef in *.
    - change (mw F32) with 23 in *. change (eb F32) with 8. lia.
    - change (mw F64) with 52 in *. change (eb F64) with 11. lia. }
  destruct Hs as [-> Hs]. rewrite (Z.mod_small (mw f - 1 - Z.log2 m)) by auto. rewrite sgn_sub2.
  - assert (Q : emin f = 1 - mw f - off) by (clear; destruct f; reflexivity). rewrite Q. ring.
  - lia.
  - clear - HX HF El Hl. set (l := Z.log2 m) in *. clearbody l. destruct (xT_float HX HF) as [(_ & Ef & Ew) | (_ & Ef & Ew)]; rewrite ?Ew, Ef in *.
    + change (mw F32) with 23 in *. change (eb F32) with 8. lia.
    + change (mw F64) with 52 in *. change (eb F64) with 11. lia.
Qed.
End Meaning.
(** the exponent of a magnitude *)
Lemma mval_normal f m : 0 <= m -> 1 <= mexp f m -> let n := mexp f m - (2 ^ (eb f - 1) - 1) in (bpow radix2 n <= mval f m < bpow radix2 (n + 1))%R.
Proof.
  intros Hm He n. unfold mval, msig, mex. replace (mexp f m =? 0) with false by lia. rewrite Z.max_l by lia.
  pose proof (@sig_bounds f (mman f m) (mexp f m + emin f - 1) (mman_range (f := f) m)) as B.
  assert (Q : mw f + emin f - 1 = - (2 ^ (eb f - 1) - 1)) by (clear; destruct f; reflexivity).
  replace (mw f + (mexp f m + emin f - 1)) with n in B by (unfold n; lia). replace (mw f + 1 + (mexp f m + emin f - 1)) with (n + 1) in B by (unfold n; lia). exact B.
Qed.
Lemma mval_subnormal f m : 0 < m -> mexp f m = 0 -> let n := Z.log2 m + emin f in (bpow radix2 n <= mval f m < bpow radix2 (n + 1))%R.
Proof.
  intros Hm He n. unfold mval, msig, mex. rewrite He. change (0 =? 0) with true. change (Z.max 0 1) with 1. cbv iota.
  pose proof (mag_split (f := f) m) as Ms. rewrite He in Ms. replace (mman f m) with m by lia. replace (1 + emin f - 1) with (emin f) by lia.
  pose proof (Z.log2_spec m Hm) as S. pose proof (Z.log2_nonneg m). unfold n. replace (Z.log2 m + emin f + 1) with (Z.log2 m + 1 + emin f) by lia.
  rewrite (bpow_plus radix2 (Z.log2 m)), (bpow_plus radix2 (Z.log2 m + 1)). rewrite <- (IZR_Zpower radix2 (Z.log2 m)), <- (IZR_Zpower radix2 (Z.log2 m + 1)) by lia.
  pose proof (bpow_gt_0 radix2 (emin f)). split; [apply Rmult_le_compat_r|apply Rmult_lt_compat_r]; try lra; [apply IZR_le | apply IZR_lt]; [exact (proj1 S)|exact (proj2 S)].
Qed.
