(** frexp and modf: lane functions and what they compute. *)
From Coq Require Import ZifyBool ZifyNat Reals Lra Psatz.
From Flocq Require Import Core IEEE754.BinarySingleNaN IEEE754.Binary IEEE754.Bits.
From Verif Require Import Base Cxx Spec GenericProofs X86Vec X86 X86Lemmas X86Proofs X86Ops X86Shift Fp FpLemmas FpOps FMath FMathProofs FLane FFields FManip FManipLanes FScalbn.
Set Implicit Arguments.
Open Scope Z_scope.

(** ** frexp *)
Section FrexpLane.
Context (X : xty) (nn : nans).
Local Notation w := (xw X).
Local Notation f := (xf X).
Definition frexp1 (x : Z) : Z * Z :=
  let m := mant w in
  let eo := wrap w (exp_mask w * 2 ^ m) in
  let ex := Z.land x eo in
  let not_fin := ex =? eo in
  let sub := ex =? 0 in
  let zero := feq w x 0 in
  let off := if sub then wrap w (w - 1) else 0 in
  let nx := if sub then fmul nn f (if sub then x else 0) (exp_mult w) else x in
  let ne := Z.land nx eo in
  let y := Z.lor (Z.land nx (wrap w (- 1 - exp_mask w * 2 ^ m))) (wrap w (exp_middle w * 2 ^ m)) in
  let ne := ((lshr_bits m ne - wrap w (exp_off w - 1)) mod 2 ^ w - off) mod 2 ^ w in
  let nfz := zero || not_fin in
  (if nfz then x else y, if nfz then ex else ne).
Context (HX : xty_ok X) (HF : is_int (xT X) = false) {k : nat}.
Lemma k_frexp_lane x vx : L X k x vx -> L X k (fst (k_frexp X (ieee nn) x)) (fst (frexp1 vx)) /\ L X k (snd (k_frexp X (ieee nn) x)) (snd (frexp1 vx)).
Proof.
  intros Hx. pose proof (L_lt Hx) as Hk. pose proof (mant_pos X HF) as Hm. destruct (@cw X HX HF) as (C1 & _).
  unfold k_frexp, frexp1. cbv zeta. cbn [fst snd].
  set (m := mant w) in *. set (eo := wrap w (exp_mask w * 2 ^ m)).
  assert (H1 := l_and HX Hx (li_ifill HX HF (exp_mask w * 2 ^ m) Hk)). fold eo in H1. set (ex := Z.land vx eo) in *.
  assert (H2 := lmi_eq HX H1 (li_ifill HX HF (exp_mask w * 2 ^ m) Hk)). fold eo in H2.
  assert (H3 := lmi_eq HX H1 (li_zero HX Hk)). set (sub := ex =? 0) in *.
  assert (H4 := lmf_eq HX HF Hx (l_zero HX Hk)).
  assert (H5 := l_sel HX H3 (li_ifill HX HF (w - 1) Hk)).
  assert (H6 := lf_mul HX HF nn (l_sel HX H3 Hx) (@lf_const X k (exp_mult w) Hk C1)).
  assert (H7 := l_blend HX Hx H6 H3). set (nx := if sub then fmul nn f (if sub then vx else 0) (exp_mult w) else vx) in *.
  assert (H8 := l_and HX H7 (li_ifill HX HF (exp_mask w * 2 ^ m) Hk)). fold eo in H8.
  assert (H9 := l_or HX (l_and HX H7 (li_ifill HX HF (- 1 - exp_mask w * 2 ^ m) Hk)) (li_ifill HX HF (exp_middle w * 2 ^ m) Hk)).
  assert (H10 := li_sub HX (ieee nn) (li_sub HX (ieee nn) (li_shiftr Hm H8) (li_ifill HX HF (exp_off w - 1) Hk)) H5).
  assert (H11 := lm_or HX H4 H2).
  split. { exact (l_blend HX H9 Hx H11). } exact (li_blend HX H10 H1 H11).
Qed.
End FrexpLane.

Section FrexpFmt.
Context (nn : nans) {f : fmt}.
Local Notation W := (fw f).
Local Notation M := (mw f).
Local Notation E := (eb f).
(** [frexp1] with the width of the format *)
Definition frexpW (x : Z) : Z * Z :=
  let eo := (2 ^ E - 1) * 2 ^ M in
  let ex := Z.land x eo in
  let sub := ex =? 0 in
  let nx := if sub then fmul nn f x (exp_mult W) else x in
  let y := Z.lor (Z.land nx (2 ^ W - 1 - eo)) (2 ^ M * (2 ^ (E - 1) - 2)) in
  let ne := ((lshr_bits M (Z.land nx eo) - (2 ^ (E - 1) - 2)) mod 2 ^ W - (if sub then W - 1 else 0)) mod 2 ^ W in
  let nfz := feq W x 0 || (ex =? eo) in
  (if nfz then x else y, if nfz then ex else ne).
Lemma land_exp x : word W x -> Z.land x ((2 ^ E - 1) * 2 ^ M) = 2 ^ M * mexp f (fmag W x).
Proof.
  intros Hx. pose proof (@mw_pos f). rewrite <- (exp_field Hx).
  replace ((2 ^ E - 1) * 2 ^ M) with (Z.shiftl (2 ^ E - 1) M) by (now rewrite Z.shiftl_mul_pow2 by lia).
  unfold lshr_bits. rewrite <- Z.shiftr_div_pow2 by lia. rewrite Z.mul_comm, <- Z.shiftl_mul_pow2 by lia. rewrite Z.shiftl_land.
  apply Z.bits_inj'. intros n Hn. rewrite !Z.land_spec. destruct (Z.lt_ge_cases n M).
  - rewrite !(Z.shiftl_spec_low _ _ n) by lia. now rewrite !andb_false_r.
  - rewrite !Z.shiftl_spec, Z.shiftr_spec by lia. now replace (n - M + M) with n by lia.
Qed.
(** frexp of a finite non-zero number: fraction exact; exponent exact for normal numbers and, as the code is written,
    smaller by (W - 1) - (M + 2) for subnormals *)
Theorem frexpW_fin x : word W x -> isfin f x = true -> fmag W x <> 0 ->
  let y := fst (frexpW x) in let e := sgn W (snd (frexpW x)) in
  let d := if mexp f (fmag W x) =? 0 then W - 1 - (M + 2) else 0 in
  isfin f y = true /\ fsign W y = fsign W x /\ (/ 2 <= Rabs (val f y) < 1)%R /\ val f x = (val f y * bpow radix2 (e + d))%R.
Proof.
  intros Hx Fx Nz. cbv zeta. pose proof (@half_e f) as HE. pose proof (@mm_pos f) as Hmm. pose proof (@mw_pos f) as HM. pose proof (@small_consts f) as SC.
  destruct (norm_form nn Hx Fx Nz) as (E0 & m' & Hm & HE0 & Vx & Cn & Cs). cbv zeta in Cn, Cs.
  assert (Fe : mexp f (fmag W x) < 2 ^ E - 1). { assert (H := Fx). rewrite (isfin_spec Hx), (fin_fields Hx) in H. pose proof (mexp_range (f := f) x). lia. }
  unfold frexpW. cbv zeta. rewrite (land_exp Hx), (feq_zero Hx Fx Nz).
  set (e := mexp f (fmag W x)) in *. set (nx := fmul nn f x (exp_mult W)) in *.
  assert (Hnx : word W nx) by apply fmul_word.
  replace (2 ^ M * e =? (2 ^ E - 1) * 2 ^ M) with false by nia. cbn [orb fst snd].
  replace (2 ^ M * e =? 0) with (e =? 0) by nia.
  set (z := if e =? 0 then nx else x). assert (Hz : word W z) by (unfold z; destruct (e =? 0); auto).
  rewrite (land_exp Hz). rewrite (clear_exp Hz).
  assert (Q : fsign W z = fsign W x /\ mexp f (fmag W z) = E0 + (if e =? 0 then M + 2 else 0) /\ mman f (fmag W z) = m').
  { unfold z. destruct (Z.eqb_spec e 0) as [Z0|Z0].
    - destruct (Cs Z0) as (_ & -> & -> & ->). auto.
    - destruct (Cn Z0) as (-> & ->). rewrite Z.add_0_r. auto. }
  destruct Q as (-> & -> & ->). clear Cn Cs z Hz Hnx nx.
  rewrite set_exp by (auto; clear - HE HM; lia).
  rewrite join_fin, join_sign by (auto; clear - HE HM; lia).
  rewrite join_val by (auto; clear - HE HM; lia).
  replace (lshr_bits M (2 ^ M * (E0 + (if e =? 0 then M + 2 else 0)))) with (E0 + (if e =? 0 then M + 2 else 0)).
  2:{ unfold lshr_bits. rewrite Z.mul_comm, Z.div_mul by lia. reflexivity. }
  replace (2 ^ (E - 1) - 2 + emin f - 1) with (- (M + 1)) by (rewrite emin_off; lia).
  split; auto. split; auto. split.
  { rewrite sgnr_abs. 2:{ apply Rmult_le_pos; [apply IZR_le; lia|apply bpow_ge_0]. }
    pose proof (@sig_bounds f m' (- (M + 1)) Hm) as S. replace (M + - (M + 1)) with (-1) in S by lia. replace (M + 1 + - (M + 1)) with 0 in S by lia.
    cbn [bpow] in S. change (Z.pow_pos radix2 1) with 2 in S. lra. }
  rewrite Vx, <- sgnr_mul, Rmult_assoc, <- bpow_plus. do 3 f_equal.
  assert (B : forall a b, (a mod 2 ^ W - b) mod 2 ^ W = wrap W (a - b)). { intros. unfold wrap. rewrite Zminus_mod_idemp_l. reflexivity. }
  rewrite B. rewrite sgn_wrap; [| destruct f; cbn; lia |].
  - rewrite emin_off. destruct (e =? 0); lia.
  - assert (32 <= W <= 64) by (destruct f; cbn; lia). destruct (e =? 0); lia.
Qed.
Theorem frexpW_special x : word W x -> (fmag W x = 0 \/ isfin f x = false) -> fst (frexpW x) = x /\ (fmag W x = 0 -> snd (frexpW x) = 0).
Proof.
  intros Hx Sp. unfold frexpW. cbv zeta. rewrite (land_exp Hx). pose proof (mexp_range (f := f) x) as Re. pose proof (@mm_pos f) as Hmm.
  assert (F : feq W x 0 || (2 ^ M * mexp f (fmag W x) =? (2 ^ E - 1) * 2 ^ M) = true).
  { destruct Sp as [Z0|Inf]; apply orb_true_iff.
    - left. unfold feq. replace (fkey W 0) with 0 by (clear; destruct f; reflexivity).
      replace (fnan W 0) with false by (clear; destruct f; reflexivity). unfold fnan, fkey. rewrite Z0.
      assert (0 < finf W) by (clear; destruct f; reflexivity). destruct (fsign W x); cbn; lia.
    - right. rewrite (isfin_spec Hx), (fin_fields Hx) in Inf. assert (mexp f (fmag W x) = 2 ^ E - 1) as -> by lia. lia. }
  rewrite F. cbn [fst snd]. split; auto. intros ->. unfold mexp. rewrite Z.div_0_l; lia.
Qed.
End FrexpFmt.

Lemma frexp1_W X nn x : xty_ok X -> is_int (xT X) = false -> frexp1 X nn x = frexpW nn (f := xf X) x.
Proof.
  intros HX HF. unfold frexp1, frexpW. cbv zeta. rewrite (xw_fw HX HF). set (f := xf X).
  replace (mant (fw f)) with (mw f) by (clearbody f; clear; destruct f; reflexivity).
  replace (wrap (fw f) (exp_mask (fw f) * 2 ^ mw f)) with ((2 ^ eb f - 1) * 2 ^ mw f) by (clearbody f; clear; destruct f; reflexivity).
  replace (wrap (fw f) (-1 - exp_mask (fw f) * 2 ^ mw f)) with (2 ^ fw f - 1 - (2 ^ eb f - 1) * 2 ^ mw f) by (clearbody f; clear; destruct f; reflexivity).
  replace (wrap (fw f) (exp_middle (fw f) * 2 ^ mw f)) with (2 ^ mw f * (2 ^ (eb f - 1) - 2)) by (clearbody f; clear; destruct f; reflexivity).
  replace (wrap (fw f) (exp_off (fw f) - 1)) with (2 ^ (eb f - 1) - 2) by (clearbody f; clear; destruct f; reflexivity).
  replace (wrap (fw f) (fw f - 1)) with (fw f - 1) by (clearbody f; clear; destruct f; reflexivity).
  destruct (Z.land x ((2 ^ eb f - 1) * 2 ^ mw f) =? 0); reflexivity.
Qed.
