(** modf: lane function and what it computes. *)
From Coq Require Import ZifyBool ZifyNat Reals Lra Psatz.
From Flocq Require Import Core IEEE754.BinarySingleNaN IEEE754.Binary IEEE754.Bits.
From Verif Require Import Base Cxx Spec GenericProofs X86Vec X86 X86Lemmas X86Proofs X86Ops X86Shift Fp FpLemmas FpOps FMath FMathProofs FLane FFields FManip FManipLanes FScalbn FFrexp.
Set Implicit Arguments.
Open Scope Z_scope.

Section Shr.
Context {X : xty} (HX : xty_ok X) (HF : is_int (xT X) = false) {k : nat}.
Local Notation w := (xw X).
Definition shr_lane (x n : Z) : Z := if n <? w then lshr_bits n x else 0.
Lemma shr_word x n : word w x -> 0 <= n -> word w (shr_lane x n).
Proof. intros Hx Hn. unfold shr_lane. destruct (n <? w). apply lshr_word; auto. pose proof (w_pos HX). apply word_0. lia. Qed.
Lemma v_shiftr_native a b : (esz (xT X) =? 8)%nat || avx2 (xc X) = true -> wfv X a -> wfv X b -> v_shiftr X a b = vmap2 shr_lane a b.
Proof.
  intros H [La Wa] [Lb Wb]. unfold v_shiftr, shr_lane. destruct (avx2 (xc X)); [reflexivity|]. rewrite orb_false_r in H. apply Nat.eqb_eq in H.
  destruct (w8 HX H) as [Hw He]. rewrite Hw. rewrite He in La, Lb. destruct (is256 X).
  - destruct a as [|a0 [|a1 [|a2 [|a3 [|? ?]]]]]; simpl in La; try lia.
    destruct b as [|b0 [|b1 [|b2 [|b3 [|? ?]]]]]; simpl in Lb; try lia. reflexivity.
  - destruct a as [|a0 [|a1 [|? ?]]]; simpl in La; try lia.
    destruct b as [|b0 [|b1 [|? ?]]]; simpl in Lb; try lia. reflexivity.
Qed.
Lemma mapM_shr : w = 32 -> forall a b, length a = length b -> forall r,
  mapM (fun p : Z * Z => if snd p <? 32 then Ok (fst p / 2 ^ snd p) else UB) (combine a b) = Ok r -> r = vmap2 shr_lane a b /\ Forall (fun n => n < 32) b.
Proof.
  intros Hw. induction a as [|x a IH]; intros [|n b] Hl r H; try discriminate. { injection H as <-. split; auto. }
  cbn [combine mapM fst snd] in H. cbn [length] in Hl.
  destruct (Z.ltb_spec n 32) as [Hn|]; [|discriminate]. cbn [bind] in H.
  destruct (mapM _ (combine a b)) as [r'|] eqn:Em; [|discriminate]. cbn [bind] in H. injection H as <-.
  destruct (IH b ltac:(lia) r' Em) as [-> Hf]. split; [|constructor; auto]. cbn [vmap2]. f_equal. unfold shr_lane. rewrite Hw. replace (n <? 32) with true by lia. reflexivity.
Qed.
Lemma v_shiftr_any_ok a b r : wfv X a -> wfv X b -> v_shiftr_any X a b = Ok r -> r = vmap2 shr_lane a b.
Proof.
  intros Ha Hb H. unfold v_shiftr_any in H. destruct ((esz (xT X) =? 8)%nat || avx2 (xc X)) eqn:Ee.
  - injection H as <-. now apply v_shiftr_native.
  - apply orb_false_iff in Ee. destruct Ee as [Ee _]. apply Nat.eqb_neq in Ee. pose proof (@w_cases X HX HF) as Hw.
    assert (w = 32). { destruct Hw as [|Hw]; auto. unfold xw, ew in Hw. lia. }
    apply (mapM_shr H0) in H. apply H. destruct Ha, Hb. congruence.
Qed.
Lemma l_shr a b r x n : v_shiftr_any X a b = Ok r -> L X k a x -> L X k b n -> L X k r (shr_lane x n).
Proof.
  intros H Ha Hb. rewrite (v_shiftr_any_ok (L_wf Ha) (L_wf Hb) H). apply l_vmap2; auto. intros. apply shr_word; auto. apply H1.
Qed.
Lemma v_shiftr_defined a b : (esz (xT X) =? 8)%nat || avx2 (xc X) = true -> exists r, v_shiftr_any X a b = Ok r.
Proof. intros H. unfold v_shiftr_any. rewrite H. eauto. Qed.
End Shr.
Arguments shr_lane : clear implicits.

Section ModfLane.
Context (X : xty) (nn : nans).
Local Notation w := (xw X).
Local Notation f := (xf X).
(** (fractional part, integral part) *)
Definition modf1 (x : Z) : Z * Z :=
  let m := mant w in
  let e := (Z.land (lshr_bits m x) (wrap w (exp_mask w)) - wrap w (exp_off w)) mod 2 ^ w in
  let int := sgn w e >? sgn w (wrap w (m - 1)) in
  let fract := sgn w 0 >? sgn w e in
  let sg := sbit f (fsign w x) in
  let mask := shr_lane X (lshr_bits (expbits w + 1) (wrap w (- 1))) e in
  let mz := negb int && (negb fract && feq w (Z.land x mask) 0) in
  let x2 := Z.ldiff x mask in
  let i := if fract then sg else x in
  let i := if mz then i else x2 in
  let y := if mz then sg else fsub nn f x x2 in
  let y := if fract then x else y in
  let y := if int then sg else y in
  let nan := fnan w x || fnan w x in
  (if nan then x else y, if nan then x else i).
Context (HX : xty_ok X) (HF : is_int (xT X) = false).
Lemma k_modf_lane k x y i vx : k_modf X (ieee nn) x = Ok (y, i) -> L X k x vx -> L X k y (fst (modf1 vx)) /\ L X k i (snd (modf1 vx)).
Proof.
  intros E Hx. pose proof (L_lt Hx) as Hk. pose proof (mant_pos X HF) as Hm.
  unfold k_modf in E. cbv zeta in E. unfold modf1. cbv zeta. cbn [fst snd].
  set (m := mant w) in *.
  assert (H1 := li_sub HX (ieee nn) (l_and HX (li_shiftr Hm Hx) (li_ifill HX HF (exp_mask w) Hk)) (li_ifill HX HF (exp_off w) Hk)).
  set (e := (Z.land (lshr_bits m vx) (wrap w (exp_mask w)) - wrap w (exp_off w)) mod 2 ^ w) in *.
  assert (H2 := lmi_gt HX H1 (li_ifill HX HF (m - 1) Hk)). set (int := sgn w e >? sgn w (wrap w (m - 1))) in *.
  assert (H3 := lmi_gt HX (li_zero HX Hk) H1). set (fract := sgn w 0 >? sgn w e) in *.
  assert (H4 := lf_sign HX HF Hx). set (sg := sbit f (fsign w vx)) in *.
  destruct (v_shiftr_any X _ _) as [mv|] eqn:Em; [|discriminate]. cbn [bind] in E. injection E as <- <-.
  assert (Hb : 0 <= expbits w + 1). { unfold expbits. destruct (w =? 32); lia. }
  assert (H5 := l_shr HX HF Em (li_shiftr Hb (li_ifill HX HF (-1) Hk)) H1).
  set (mask := shr_lane X _ e) in *.
  assert (H6 := lm_andnot H2 (lm_andnot H3 (lmf_eq HX HF (l_and HX Hx H5) (l_zero HX Hk)))).
  set (mz := negb int && (negb fract && feq w (Z.land vx mask) 0)) in *.
  assert (H7 := l_andnot HX H5 Hx). set (x2 := Z.ldiff vx mask) in *.
  assert (H8 := l_blend HX H7 (l_blend HX Hx H4 H3) H6).
  assert (H9 := l_blend HX (l_blend HX (l_blend HX (lf_sub HX HF nn Hx H7) H4 H6) Hx H3) H4 H2).
  assert (H10 := lm_unord Hx Hx).
  split. { exact (l_blend HX H9 Hx H10). } exact (l_blend HX H8 Hx H10).
Qed.
Lemma k_modf_defined x : (esz (xT X) =? 8)%nat || avx2 (xc X) = true -> exists p, k_modf X (ieee nn) x = Ok p.
Proof.
  intros H. unfold k_modf. cbv zeta. match goal with |- context [v_shiftr_any X ?a ?b] => destruct (v_shiftr_defined a b H) as [r ->] end. cbn [bind]. eauto.
Qed.
End ModfLane.

Section ModfFmt.
Context (nn : nans) {f : fmt}.
Local Notation W := (fw f).
Local Notation M := (mw f).
Local Notation E := (eb f).
Local Notation bias := (2 ^ (E - 1) - 1).
(** [modf1] with the width of the format *)
Definition modfW (x : Z) : Z * Z :=
  let e := (Z.land (lshr_bits M x) (2 ^ E - 1) - bias) mod 2 ^ W in
  let int := sgn W e >? M - 1 in
  let fract := 0 >? sgn W e in
  let sg := sbit f (fsign W x) in
  let mask := if e <? W then lshr_bits e (2 ^ M - 1) else 0 in
  let mz := negb int && (negb fract && feq W (Z.land x mask) 0) in
  let x2 := Z.ldiff x mask in
  let i := if mz then (if fract then sg else x) else x2 in
  let y := if mz then sg else fsub nn f x x2 in
  let y := if fract then x else y in
  let y := if int then sg else y in
  (if fnan W x then x else y, if fnan W x then x else i).

Definition modf_ok (x y i : Z) : Prop :=
  isfin f y = true /\ isfin f i = true /\ fsign W y = fsign W x /\ fsign W i = fsign W x /\
  (exists n, val f i = IZR n) /\ (Rabs (val f y) < 1)%R /\ val f x = (val f i + val f y)%R.

Lemma feq0 r : 0 <= r < 2 ^ M -> feq W r 0 = (r =? 0).
Proof.
  intros Hr. pose proof (@pw1 f). pose proof (@ee_pos f).
  assert (Hm : fmag W r = r). { unfold fmag. apply Z.mod_small. nia. }
  assert (Hs : fsign W r = false). { unfold fsign. nia. }
  unfold feq. replace (fkey W 0) with 0 by (clear; destruct f; reflexivity). replace (fnan W 0) with false by (clear; destruct f; reflexivity).
  unfold fkey, fnan. rewrite Hm, Hs. rewrite finf_alt. cbn. nia.
Qed.
Lemma szero_sbit s : szero f s = sbit f s. Proof. unfold szero. lia. Qed.

Theorem modfW_big x : word W x -> isfin f x = true -> bias <= mexp f (fmag W x) -> modf_ok x (fst (modfW x)) (snd (modfW x)).
Proof.
  intros Hx Fx Hb. pose proof (@half_e f) as HE. pose proof (@mm_pos f) as Hmm. pose proof (@mw_pos f) as HM. pose proof (@small_consts f) as SC.
  assert (Fe : mexp f (fmag W x) < 2 ^ E - 1). { assert (H := Fx). rewrite (isfin_spec Hx), (fin_fields Hx) in H. pose proof (mexp_range (f := f) x). lia. }
  pose proof (mman_range (f := f) (fmag W x)) as Hm. pose proof (fields_val Hx Fx ltac:(lia)) as Vx. pose proof (join_split Hx) as Jx.
  unfold modfW. cbv zeta. rewrite (exp_field Hx), (fin_fnan Hx Fx). cbn [fst snd].
  set (ex := mexp f (fmag W x)) in *. set (m := mman f (fmag W x)) in *. set (s := fsign W x) in *. assert (Sx : fsign W x = s) by reflexivity. clearbody ex m s.
  set (e0 := ex - bias) in *. 
  assert (Sg : sgn W (e0 mod 2 ^ W) = e0). { apply (@sgn_wrap W e0). destruct f; cbn; lia. lia. }
  rewrite (Z.mod_small e0) in * by lia.
  rewrite Sg. replace (0 >? e0) with false by lia. cbn [negb andb].
  replace (ex + emin f - 1) with (e0 - M) in Vx by (rewrite emin_off; unfold e0; lia).
  destruct (@szero_fin f s) as (Zf & Zv & Zs). rewrite <- (szero_sbit s).
  destruct (Z.gtb_spec e0 (M - 1)) as [Hi|Hi]; cbn [negb andb].
  - (* already an integer *)
    assert (Em : (if e0 <? W then lshr_bits e0 (2 ^ M - 1) else 0) = 0).
    { destruct (e0 <? W); auto. unfold lshr_bits. apply Z.div_small. assert (2 ^ M <= 2 ^ e0) by (apply Z.pow_le_mono_r; lia). lia. }
    rewrite Em, Z.ldiff_0_r. unfold modf_ok. rewrite Sx, Zf, Zv, Zs, Fx. do 4 (split; auto). split; [|split; [rewrite Rabs_R0; lra|lra]].
    exists ((if s then -1 else 1) * ((m + 2 ^ M) * 2 ^ (e0 - M))). rewrite Vx. rewrite !mult_IZR. change (2 ^ (e0 - M)) with (Zpower radix2 (e0 - M)). rewrite IZR_Zpower by lia.
    destruct s; cbn [sgnr]; lra.
  - set (k := M - e0). assert (Hk : 1 <= k <= M) by lia.
    assert (Wb : M < W) by (destruct f; cbn; lia).
    assert (Em : (if e0 <? W then lshr_bits e0 (2 ^ M - 1) else 0) = Z.ones k).
    { replace (e0 <? W) with true by lia. unfold lshr_bits. rewrite Z.ones_equiv. symmetry. apply (Z.div_unique _ _ _ (2 ^ e0 - 1)). left. pose proof (pow2_pos e0 ltac:(lia)). lia.
      replace M with (e0 + k) at 1 by (unfold k; lia). rewrite Z.pow_add_r by lia. lia. }
    rewrite Em. clear Em. rewrite Z.land_ones, Z.ldiff_ones_r by lia. rewrite Z.shiftl_mul_pow2, Z.shiftr_div_pow2 by lia.
    pose proof (pow2_pos k ltac:(lia)) as Pk. set (r := m mod 2 ^ k). assert (Hr : 0 <= r < 2 ^ k) by (apply Z.mod_pos_bound; lia).
    assert (Mk : 2 ^ M = 2 ^ k * 2 ^ (M - k)) by (rewrite <- Z.pow_add_r by lia; f_equal; lia).
    assert (Xr : x mod 2 ^ k = r).
    { rewrite Jx. unfold join, sbit. rewrite (@pw1 f). unfold r.
      replace (m + 2 ^ M * ex + (if s then 2 ^ M * 2 ^ E else 0)) with (m + (2 ^ (M - k) * (ex + (if s then 2 ^ E else 0))) * 2 ^ k) by (destruct s; nia).
      apply Z_mod_plus_full. }
    assert (Xd : x / 2 ^ k * 2 ^ k = join f s ex (m - r)).
    { pose proof (Z.div_mod x (2 ^ k) ltac:(lia)) as D. rewrite Xr in D. unfold join in *. lia. }
    rewrite Xr, Xd. clear Xr Xd. 
    assert (Mr : 0 <= m - r < 2 ^ M). { unfold r. pose proof (Z.mod_le m (2 ^ k) ltac:(lia) ltac:(lia)). lia. }
    assert (Rm : r < 2 ^ M). { assert (2 ^ k <= 2 ^ M) by (apply Z.pow_le_mono_r; lia). lia. }
    rewrite feq0 by lia.
    assert (He : 1 <= ex < 2 ^ E - 1) by lia. set (x2 := join f s ex (m - r)) in *.
    assert (F2 : isfin f x2 = true) by (apply join_fin; auto; lia). assert (S2 : fsign W x2 = s) by (apply join_sign; auto; lia).
    assert (W2 : word W x2) by (apply join_word; auto; lia).
    assert (V2 : val f x2 = sgnr s (IZR (m - r + 2 ^ M) * bpow radix2 (- k))).
    { unfold x2. rewrite join_val by auto. do 3 f_equal. rewrite emin_off. unfold k, e0. lia. }
    replace (e0 - M) with (- k) in Vx by (unfold k; lia).
    assert (Int : exists n, val f x2 = IZR n).
    { exists ((if s then -1 else 1) * (m / 2 ^ k + 2 ^ (M - k))). rewrite V2. 
      replace (m - r + 2 ^ M) with ((m / 2 ^ k + 2 ^ (M - k)) * 2 ^ k).
      2:{ pose proof (Z.div_mod m (2 ^ k) ltac:(lia)) as D. fold r in D. rewrite Mk. nia. }
      rewrite (mult_IZR (if s then _ else _)). rewrite (mult_IZR _ (2 ^ k)). change (2 ^ k) with (Zpower radix2 k). rewrite IZR_Zpower by lia. rewrite Rmult_assoc, <- bpow_plus.
      replace (k + - k) with 0 by lia. cbn [bpow]. destruct s; cbn [sgnr]; lra. }
    assert (Df : (val f x - val f x2)%R = sgnr s (IZR r * bpow radix2 (- k))).
    { rewrite Vx, V2. rewrite !plus_IZR, minus_IZR. destruct s; cbn [sgnr]; lra. }
    assert (Bk : (IZR r * bpow radix2 (- k) < 1)%R).
    { replace 1%R with (bpow radix2 k * bpow radix2 (- k))%R by (rewrite <- bpow_plus; replace (k + - k) with 0 by lia; reflexivity).
      apply Rmult_lt_compat_r. apply bpow_gt_0. rewrite <- IZR_Zpower by lia. apply IZR_lt. apply Hr. }
    destruct (Z.eqb_spec r 0) as [R0|R0]; cbn [negb].
    + (* the fraction is zero *)
      assert (Xeq : val f x = val f x2). { rewrite R0 in Df. rewrite Rmult_0_l in Df. destruct s; cbn [sgnr] in Df; lra. }
      unfold modf_ok. rewrite Sx, Zf, Zv, Zs, Fx. do 4 (split; auto). split. { rewrite Xeq. exact Int. } split; [rewrite Rabs_R0; lra|lra].
    + assert (Pr : (0 < IZR r * bpow radix2 (- k))%R). { apply Rmult_lt_0_compat. apply IZR_lt; lia. apply bpow_gt_0. }
      assert (G : generic_format radix2 (SpecFloat.fexp (prec f) (emax f)) (sgnr s (IZR r * bpow radix2 (- k)))).
      { assert (generic_format radix2 (SpecFloat.fexp (prec f) (emax f)) (IZR r * bpow radix2 (- k))).
        { apply fmt_F2R. unfold prec. rewrite Z.pow_add_r by lia. lia. rewrite emin_off. lia. }
        destruct s; cbn [sgnr]; auto. now apply generic_format_opp. }
      assert (Ab : Rabs (sgnr s (IZR r * bpow radix2 (- k))) = (IZR r * bpow radix2 (- k))%R) by (apply sgnr_abs; lra).
      destruct (@fsub_fin nn f x x2 Hx W2 Fx F2) as (Vy & Fy & Sy).
      { rewrite Df, rnd_id by exact G. rewrite Ab. eapply Rlt_trans. exact Bk. change 1%R with (bpow radix2 0). apply bpow_lt. unfold emax. lia. }
      rewrite Df, rnd_id in Vy by exact G. rewrite Df in Sy.
      unfold modf_ok. rewrite Sx, Vy, Fy, Sy, F2, S2. split; auto. split; auto. split.
      { destruct s; cbn [sgnr]; [rewrite Rcompare_Lt by lra|rewrite Rcompare_Gt by lra]; reflexivity. }
      split; auto. split; auto. split. { rewrite Ab. exact Bk. } rewrite <- Df. lra.
Qed.
(** |x| < 1, infinities and NaNs *)
Theorem modfW_small x : word W x -> mexp f (fmag W x) < bias -> modfW x = (x, x).
Proof.
  intros Hx Hb. pose proof (@half_e f) as HE. pose proof (@mw_pos f) as HM. pose proof (@small_consts f) as SC. pose proof (mexp_range (f := f) x) as Re.
  unfold modfW. cbv zeta. rewrite (exp_field Hx). set (ex := mexp f (fmag W x)) in *. clearbody ex.
  assert (Sg : sgn W ((ex - bias) mod 2 ^ W) = ex - bias). { apply (@sgn_wrap W (ex - bias)). destruct f; cbn; lia. lia. }
  rewrite Sg. replace (ex - bias >? M - 1) with false by lia. replace (0 >? ex - bias) with true by lia. cbn [negb andb].
  assert (Em : (ex - bias) mod 2 ^ W <? W = false).
  { change ((ex - bias) mod 2 ^ W) with (wrap W (ex - bias)). rewrite wrap_neg by lia. assert (32 <= W <= 64) by (destruct f; cbn; lia). lia. }
  rewrite Em, Z.ldiff_0_r. destruct (fnan W x); reflexivity.
Qed.
Theorem modfW_special x : word W x -> isfin f x = false -> modfW x = (if fnan W x then x else szero f (fsign W x), x).
Proof.
  intros Hx Inf. pose proof (@half_e f) as HE. pose proof (@mw_pos f) as HM. pose proof (@small_consts f) as SC. pose proof (mexp_range (f := f) x) as Re.
  rewrite (isfin_spec Hx), (fin_fields Hx) in Inf. assert (Ex : mexp f (fmag W x) = 2 ^ E - 1) by lia.
  unfold modfW. cbv zeta. rewrite (exp_field Hx), Ex. 
  assert (Sg : sgn W ((2 ^ E - 1 - bias) mod 2 ^ W) = 2 ^ E - 1 - bias). { apply (@sgn_wrap W (2 ^ E - 1 - bias)). destruct f; cbn; lia. lia. }
  rewrite Sg. replace (2 ^ E - 1 - bias >? M - 1) with true by lia. cbn [negb andb]. rewrite Z.mod_small by lia.
  assert (Em : 2 ^ E - 1 - bias <? W = false) by (clear; destruct f; reflexivity). rewrite Em, Z.ldiff_0_r. rewrite <- (szero_sbit (fsign W x)).
  destruct (fnan W x); auto.
Qed.
End ModfFmt.

Lemma modf1_W X nn x : xty_ok X -> is_int (xT X) = false -> modf1 X nn x = modfW nn (f := xf X) x.
Proof.
  intros HX HF. unfold modf1, modfW, shr_lane. cbv zeta. rewrite (xw_fw HX HF). set (f := xf X). rewrite orb_diag.
  replace (mant (fw f)) with (mw f) by (clearbody f; clear; destruct f; reflexivity).
  replace (wrap (fw f) (exp_mask (fw f))) with (2 ^ eb f - 1) by (clearbody f; clear; destruct f; reflexivity).
  replace (wrap (fw f) (exp_off (fw f))) with (2 ^ (eb f - 1) - 1) by (clearbody f; clear; destruct f; reflexivity).
  replace (lshr_bits (expbits (fw f) + 1) (wrap (fw f) (-1))) with (2 ^ mw f - 1) by (clearbody f; clear; destruct f; reflexivity).
  replace (sgn (fw f) (wrap (fw f) (mw f - 1))) with (mw f - 1) by (clearbody f; clear; destruct f; reflexivity).
  replace (sgn (fw f) 0) with 0 by (clearbody f; clear; destruct f; reflexivity). reflexivity.
Qed.
