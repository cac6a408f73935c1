(** The argument reduction of log and log2 on positive normal numbers: x = 2^k z, z in the bin of the table entry; and the per-entry facts of the tables. *)
From Coq Require Import ZifyBool ZifyNat Reals Lra.
From Flocq Require Import Core IEEE754.BinarySingleNaN IEEE754.Binary.
From Verif Require Import Base Cxx Spec X86Vec X86 X86Lemmas X86Proofs X86Ops Fp FpLemmas FpOps FMath FMathProofs FLane FFields FManip FManipLanes PropManip Round RoundProofs RoundSem FArith Cvt CvtProofs LogbProofs PropArith FCvt PropHypot PropIeee FRoute FRouteProofs LogTab Log LogProofs PropLog
  FErr IvPoly TrigTab SinPoly LnBound.
Set Implicit Arguments.
Open Scope Z_scope.

Lemma land_high t m n : 0 <= m -> 0 <= n -> 0 <= t < 2 ^ (m + n) -> Z.land t ((2 ^ n - 1) * 2 ^ m) = t - t mod 2 ^ m.
Proof.
  intros Hm Hn Ht. pose proof (pow2_pos _ Hm) as Pm.
  assert (E : t = Z.shiftl (t / 2 ^ m) m + t mod 2 ^ m) by (rewrite Z.shiftl_mul_pow2 by lia; pose proof (Z_div_mod_eq_full t (2 ^ m)); lia).
  replace ((2 ^ n - 1) * 2 ^ m) with (Z.shiftl (Z.ones n) m) by (rewrite Z.shiftl_mul_pow2, Z.ones_equiv by lia; lia).
  replace (Z.land t (Z.shiftl (Z.ones n) m)) with (Z.shiftl (Z.land (t / 2 ^ m) (Z.ones n)) m).
  - rewrite Z.land_ones by auto. rewrite Z.mod_small. { rewrite Z.shiftl_mul_pow2 in * by lia. lia. } split; [apply Z.div_pos; lia|]. apply Z.div_lt_upper_bound; [lia|]. rewrite <- Z.pow_add_r by lia. lia.
  - apply Z.bits_inj'. intros i Hi. rewrite Z.shiftl_spec, !Z.land_spec, Z.shiftl_spec by auto. destruct (Z.ltb_spec i m) as [L|L].
    + rewrite !(Z.testbit_neg_r _ (i - m)) by lia. now rewrite !andb_false_r.
    + f_equal. rewrite <- Z.shiftr_div_pow2 by lia. rewrite Z.shiftr_spec by lia. f_equal. lia.
Qed.
(** pure bit arithmetic of the reduction: o is the offset, x the bit pattern *)
Section Bits.
Variables (w m o x : Z).
Hypotheses (Hm : 0 < m) (Hw : m + 1 < w) (Ho : 0 <= o) (Ho2 : o + 2 ^ m < 2 ^ (w - 1)) (Hx : 0 <= x < 2 ^ (w - 1)).
Let k := (x - o) / 2 ^ m.
Let rem := (x - o) mod 2 ^ m.
Let t := (x - o) mod 2 ^ w.
Lemma b_pows : 0 < 2 ^ m /\ 2 ^ w = 2 * 2 ^ (w - 1) /\ 2 ^ m < 2 ^ (w - 1) /\ 2 ^ w = 2 ^ m * 2 ^ (w - m).
Proof.
  split; [apply pow2_pos; lia|]. split. { replace w with (1 + (w - 1)) at 1 by lia. rewrite Z.pow_add_r by lia. reflexivity. } split. { apply Z.pow_lt_mono_r; lia. }
  rewrite <- Z.pow_add_r by lia. f_equal. lia.
Qed.
Lemma b_t : 0 <= t < 2 ^ w /\ t mod 2 ^ m = rem /\ sgn w t = x - o.
Proof.
  destruct b_pows as (P1 & P2 & P3 & P4). unfold t, rem, sgn. split; [apply Z.mod_pos_bound; lia|]. split.
  - rewrite P4. rewrite Z.rem_mul_r by (pose proof (@pow2_pos (w - m) ltac:(lia)); lia). rewrite (Z.mul_comm (2 ^ m)), Z.mod_add by lia. apply Z.mod_mod. lia.
  - destruct (Z.leb_spec 0 (x - o)) as [L|L].
    + rewrite Z.mod_small by lia. destruct (Z.ltb_spec (x - o) (2 ^ (w - 1))); lia.
    + replace ((x - o) mod 2 ^ w) with (x - o + 2 ^ w). { destruct (Z.ltb_spec (x - o + 2 ^ w) (2 ^ (w - 1))); lia. } rewrite <- (Z.mod_add (x - o) 1) by lia. rewrite Z.mod_small; lia.
Qed.
Lemma b_eq : x = (o + rem) + k * 2 ^ m /\ 0 <= rem < 2 ^ m.
Proof. destruct b_pows as (P1 & _). unfold k, rem. pose proof (Z_div_mod_eq_full (x - o) (2 ^ m)). pose proof (Z.mod_pos_bound (x - o) (2 ^ m) P1). lia. Qed.
Lemma b_z : (x - Z.land t ((2 ^ (w - m) - 1) * 2 ^ m)) mod 2 ^ w = o + rem.
Proof.
  destruct b_pows as (P1 & P2 & P3 & P4). destruct b_t as (T1 & T2 & _). destruct b_eq as (E & R). rewrite land_high by (rewrite ?Z.add_simpl_r; try lia; replace (m + (w - m)) with w by lia; lia).
  rewrite T2. unfold t. rewrite <- Zminus_mod_idemp_r. replace ((x - o) mod 2 ^ w - rem) with ((x - o) mod 2 ^ w + (- rem)) by lia. rewrite Zplus_mod_idemp_l, Zminus_mod_idemp_r.
  replace (x - (x - o + - rem)) with (o + rem) by lia. apply Z.mod_small. lia.
Qed.
Lemma b_i b : 0 <= b <= m -> Z.land (t / 2 ^ (m - b)) (2 ^ b - 1) = rem / 2 ^ (m - b).
Proof.
  intros Hb. destruct b_t as (T1 & T2 & _). replace (2 ^ b - 1) with (Z.ones b) by (rewrite Z.ones_equiv; lia). rewrite Z.land_ones by lia. rewrite <- T2.
  pose proof (@pow2_pos (m - b) ltac:(lia)). pose proof (@pow2_pos b ltac:(lia)).
  replace (2 ^ m) with (2 ^ (m - b) * 2 ^ b) by (rewrite <- Z.pow_add_r by lia; f_equal; lia).
  rewrite Z.rem_mul_r by lia. rewrite Z.add_comm, Z.mul_comm, Z.div_add_l by lia. rewrite (Z.div_small (t mod 2 ^ (m - b))) by (apply Z.mod_pos_bound; lia). lia.
Qed.
Lemma b_krange : - (2 ^ (w - 1)) <= k < 2 ^ (w - 1) /\ (sgn w t / 2 ^ m) mod 2 ^ w = k mod 2 ^ w.
Proof.
  destruct b_pows as (P1 & P2 & P3 & P4). destruct b_t as (_ & _ & T3). rewrite T3. fold k. split; auto. unfold k. split.
  - apply Z.div_le_lower_bound; nia. - apply Z.div_lt_upper_bound; nia.
Qed.
End Bits.
(** 2^k scales a positive normal number whose bits differ by k 2^m *)
Lemma mval_shift f z k : 2 ^ mw f <= z -> 2 ^ mw f <= z + k * 2 ^ mw f -> (mval f (z + k * 2 ^ mw f) = bpow radix2 k * mval f z)%R.
Proof.
  intros H1 H2. assert (P : 0 < 2 ^ mw f) by (destruct f; reflexivity). unfold mval.
  assert (E : mexp f (z + k * 2 ^ mw f) = mexp f z + k /\ mman f (z + k * 2 ^ mw f) = mman f z). { unfold mexp, mman. rewrite Z.div_add, Z.mod_add by lia. auto. }
  destruct E as [E1 E2]. assert (N1 : 1 <= mexp f z) by (unfold mexp; apply Z.div_le_lower_bound; lia). assert (N2 : 1 <= mexp f (z + k * 2 ^ mw f)) by (unfold mexp; apply Z.div_le_lower_bound; lia).
  unfold msig, mex. rewrite E1, E2 in *. replace (mexp f z + k =? 0) with false by lia. replace (mexp f z =? 0) with false by lia.
  replace (Z.max (mexp f z + k) 1 + emin f - 1) with (k + (Z.max (mexp f z) 1 + emin f - 1)) by lia. rewrite bpow_plus. ring.
Qed.
Lemma val_mval f z : 0 <= z < finf (fw f) -> word (fw f) z /\ isfin f z = true /\ val f z = mval f z.
Proof.
  intros Hz. assert (W : word (fw f) z /\ fmag (fw f) z = z /\ fsign (fw f) z = false).
  { unfold word, fmag, fsign. assert (finf (fw f) < 2 ^ (fw f - 1) < 2 ^ fw f) by (destruct f; split; reflexivity). split; [lia|]. rewrite Z.mod_small by lia. lia. }
  destruct W as (W & M & S). assert (F : isfin f z = true) by (rewrite (isfin_spec W), M; lia). split; auto. split; auto. rewrite (val_sgnr W F), M, S. reflexivity.
Qed.
(** a positive number has no sign bit; a normal one has a non-zero exponent field *)
Lemma pos_bits f v : word (fw f) v -> isfin f v = true -> (0 < val f v)%R -> 0 <= v < finf (fw f) /\ val f v = mval f v.
Proof.
  intros Hv Fv P. rewrite (val_sgnr Hv Fv) in P. pose proof (mval_ge0 f (fin_word f Hv)) as G. destruct (fsign (fw f) v) eqn:S; cbn [sgnr] in P; [lra|].
  assert (M : fmag (fw f) v = v). { unfold fmag, fsign, word in *. apply Z.mod_small. lia. } pose proof Fv as F. rewrite (isfin_spec Hv), M in F.
  split. { unfold word in Hv. lia. } rewrite (val_sgnr Hv Fv), S, M. reflexivity.
Qed.
Lemma norm_bits f v : word (fw f) v -> isfin f v = true -> (bpow radix2 (emin f + mw f) <= val f v)%R -> 2 ^ mw f <= v < finf (fw f) /\ val f v = mval f v.
Proof.
  intros Hv Fv P. destruct (pos_bits f Hv Fv) as [A B]. { pose proof (bpow_gt_0 radix2 (emin f + mw f)). lra. } split; auto. split; [|apply A].
  rewrite B in P. apply (mval_le f); [destruct f; discriminate|lia|]. eapply Rle_trans; [|exact P]. right. unfold mval. destruct f; vm_compute msig; vm_compute mex; cbn [emin mw].
  - change 8388608 with (Zpower radix2 23). rewrite IZR_Zpower by lia. rewrite <- bpow_plus. reflexivity.
  - change 4503599627370496 with (Zpower radix2 52). rewrite IZR_Zpower by lia. rewrite <- bpow_plus. reflexivity.
Qed.
Lemma cvt_k f k : Z.abs k <= emax f -> (if fw f =? 32 then fof_int F32 (sgn 32 (k mod 2 ^ fw f)) else fof_int F64 (sgn 32 (lo32 (k mod 2 ^ fw f)))) = fof_int f k.
Proof.
  intros Kr. assert (Q : Z.abs k <= 1024) by (destruct f; cbn in Kr; lia). clear Kr.
  assert (S32 : sgn 32 (k mod 2 ^ 32) = k). { unfold sgn. destruct (Z.ltb_spec (k mod 2 ^ 32) (2 ^ (32 - 1))); pose proof (Z_div_mod_eq_full k (2 ^ 32)); pose proof (Z.mod_pos_bound k (2 ^ 32) eq_refl); lia. }
  destruct f; cbn [fw Z.eqb Pos.eqb]; f_equal; auto. unfold lo32. rewrite <- S32 at 2. f_equal.
  change (2 ^ 64) with (2 ^ 32 * 2 ^ 32). rewrite Z.rem_mul_r by lia. rewrite (Z.mul_comm (2 ^ 32)), Z.mod_add by lia. apply Z.mod_mod. lia.
Qed.
Section R.
Context {X : xty} (HX : xty_ok X) (HF : is_int (xT X) = false) (nn : nans).
Local Notation w := (xw X).
Local Notation f := (xf X).
Lemma off_facts f : let o := log_off (fw f) in 0 < mw f /\ mw f + 1 < fw f /\ 2 ^ mw f <= o /\ o + 2 ^ mw f < 2 ^ (fw f - 1) /\ o + 2 ^ mw f < finf (fw f) /\ finf (fw f) < 2 ^ (fw f - 1).
Proof. destruct f; vm_compute; repeat split; discriminate. Qed.
(** x = 2^k z with z in the bin of the entry *)
Theorem red_ok bits x : 0 <= bits <= mw f -> 2 ^ mw f <= x < finf (fw f) -> exists k z,
  mval f x = (bpow radix2 k * mval f z)%R /\ lz (X := X) x = z /\ 2 ^ mw f <= z < finf (fw f) /\ Z.abs k <= emax f /\
  (word (fw f) (lcvt (X := X) (lk (X := X) x)) /\ isfin f (lcvt (X := X) (lk (X := X) x)) = true /\ val f (lcvt (X := X) (lk (X := X) x)) = IZR k) /\
  exists i, lidx (X := X) bits x = i /\ 0 <= i < 2 ^ bits /\ log_off (fw f) + i * 2 ^ (mw f - bits) <= z < log_off (fw f) + (i + 1) * 2 ^ (mw f - bits).
Proof.
  intros Hb Hx. pose proof (w_fw HX HF) as Ew. destruct (off_facts f) as (A1 & A2 & A3 & A4 & A5 & A6). set (o := log_off (fw f)) in *.
  assert (Hx1 : 0 <= x < 2 ^ (fw f - 1)) by lia. assert (Ho : 0 <= o) by lia. assert (Em : mant w = mw f) by (rewrite Ew; apply mant_mw).
  set (k := (x - o) / 2 ^ mw f). set (rem := (x - o) mod 2 ^ mw f). destruct (b_eq (w := fw f) o x A1 A2) as [E R]. fold k rem in E, R.
  assert (Pm : 0 < 2 ^ mw f) by lia.
  assert (Kr : Z.abs k <= emax f). { assert (finf (fw f) <= (emax f + emax f - 1) * 2 ^ mw f /\ o <= emax f * 2 ^ mw f /\ (emax f - 2) * 2 ^ mw f <= o) by (unfold o; clear; destruct f; vm_compute; repeat split; discriminate). clear -H E R Hx Pm. nia. }
  exists k, (o + rem). split; [|split; [|split; [|split; [exact Kr|split]]]].
  - rewrite E at 1. apply mval_shift; lia.
  - unfold lz, ltmp. rewrite Em, Ew. fold o. apply b_z; auto.
  - lia.
  - unfold lcvt, lk, ltmp. rewrite Em, Ew. fold o. unfold ashr_bits. destruct (b_krange A1 A2 Ho A4 Hx1) as [K1 K2]. rewrite K2. fold k. fold k in K1.
    rewrite (cvt_k f k Kr).
    split; [apply enc_word|]. destruct (@fof_int_ok f k) as (_ & F1 & V1 & _). { clear -Kr. destruct f; cbn in *; lia. } split; auto. rewrite V1. apply rnd_int_exact. clear -Kr. destruct f; cbn in *; lia.
  - exists (rem / 2 ^ (mw f - bits)). pose proof (@pow2_pos (mw f - bits) ltac:(lia)) as P2. assert (P3 : 2 ^ mw f = 2 ^ (mw f - bits) * 2 ^ bits) by (rewrite <- Z.pow_add_r by lia; f_equal; lia). split; [|split].
    + unfold lidx, lshr_bits, ltmp. rewrite Em, Ew. fold o. apply b_i; auto.
    + split; [apply Z.div_pos; lia|]. apply Z.div_lt_upper_bound; lia.
    + pose proof (Z_div_mod_eq_full rem (2 ^ (mw f - bits))). pose proof (Z.mod_pos_bound rem _ P2). lia.
Qed.
(** normal numbers are not rescaled *)
Lemma lnorm_id x : 2 ^ mw f <= x < finf (fw f) -> lnorm1 (X := X) nn x = x.
Proof.
  intros Hx. unfold lnorm1. destruct (xT_float HX HF) as [(_ & Ef & Ew) | (_ & Ef & Ew)]; rewrite Ew; rewrite Ef in Hx; cbn [Z.eqb Pos.eqb].
  - change (2 ^ mw F32) with 8388608 in Hx. change (finf (fw F32)) with 2139095040 in Hx. rewrite Z.mod_small by (clear -Hx; lia). unfold sgn. destruct (Z.ltb_spec (x - 0x800000) (2 ^ (32 - 1))); [|lia]. destruct (Z.gtb_spec (x - 0x800000) (0x7f000000 - 1)); [lia|reflexivity].
  - change (2 ^ mw F64) with (0x10 * 2 ^ 48) in Hx. change (finf (fw F64)) with (0x7ff0 * 2 ^ 48) in Hx. unfold lshr_bits.
    assert (H : 0x10 <= x / 2 ^ 48 < 0x7ff0). { split; [apply Z.div_le_lower_bound; lia|apply Z.div_lt_upper_bound; lia]. }
    set (y := x / 2 ^ 48) in *. clearbody y. rewrite Z.mod_small by (clear -H; lia). 
    assert (G : gtl X (y - 0x10) (0x7fe0 - 1) = false); [|now rewrite G].
    clear -H Ew. unfold gtl. destruct (l32 X).
    + rewrite (Z.mod_small (y - 16)) by lia. change ((32736 - 1) mod 2 ^ 32) with 32735. unfold sgn. destruct (Z.ltb_spec (y - 16) (2 ^ (32 - 1))); [|lia]. cbn. lia.
    + rewrite Ew. unfold sgn. destruct (Z.ltb_spec (y - 16) (2 ^ (64 - 1))); [|lia]. cbn. lia.
Qed.
End R.
Close Scope Z_scope.
