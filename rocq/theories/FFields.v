(** Sign, exponent and mantissa fields of a bit pattern: extraction, replacement, value; rounding bounds. *)
From Coq Require Import ZifyBool ZifyNat Reals Lra Psatz.
From Flocq Require Import Core IEEE754.BinarySingleNaN IEEE754.Binary IEEE754.Bits.
From Verif Require Import Base Cxx Spec GenericProofs X86Vec X86 X86Lemmas X86Proofs X86Ops Fp FpLemmas FpOps FMath FMathProofs.
Set Implicit Arguments.
Open Scope Z_scope.

Section Fields.
Context {f : fmt}.
Local Notation W := (fw f).
Local Notation M := (mw f).
Local Notation E := (eb f).
Local Notation fexp := (SpecFloat.fexp (prec f) (emax f)).

Definition join (s : bool) (e m : Z) : Z := m + 2 ^ M * e + sbit f s.
Lemma ee_pos : 4 <= 2 ^ E. Proof. destruct f; cbn; lia. Qed.
Lemma em_range e m : 0 <= e < 2 ^ E -> 0 <= m < 2 ^ M -> 0 <= m + 2 ^ M * e < 2 ^ (W - 1).
Proof. intros He Hm. rewrite (@pw1 f). nia. Qed.
Lemma join_word s e m : 0 <= e < 2 ^ E -> 0 <= m < 2 ^ M -> word W (join s e m).
Proof. intros He Hm. unfold join, sbit. apply word_join, em_range; auto. Qed.
Lemma join_mag s e m : 0 <= e < 2 ^ E -> 0 <= m < 2 ^ M -> fmag W (join s e m) = m + 2 ^ M * e.
Proof. intros He Hm. unfold join, sbit. apply fmag_join, em_range; auto. Qed.
Lemma join_sign s e m : 0 <= e < 2 ^ E -> 0 <= m < 2 ^ M -> fsign W (join s e m) = s.
Proof. intros He Hm. unfold join, sbit. apply fsign_join, em_range; auto. Qed.
Lemma me_exp e m : 0 <= m < 2 ^ M -> mexp f (m + 2 ^ M * e) = e.
Proof. intros Hm. unfold mexp. rewrite Z.mul_comm, Z_div_plus by lia. rewrite Z.div_small by lia. lia. Qed.
Lemma me_man e m : 0 <= m < 2 ^ M -> mman f (m + 2 ^ M * e) = m.
Proof. intros Hm. unfold mman. rewrite Z.mul_comm, Z_mod_plus_full. apply Z.mod_small. lia. Qed.
Lemma join_split x : word W x -> x = join (fsign W x) (mexp f (fmag W x)) (mman f (fmag W x)).
Proof. intros Hx. unfold join, sbit. destruct (word_split Hx) as [_ S]. pose proof (mag_split (f := f) (fmag W x)). lia. Qed.

Lemma exp_field x : word W x -> Z.land (lshr_bits M x) (2 ^ E - 1) = mexp f (fmag W x).
Proof.
  intros Hx. pose proof (@mm_pos f). pose proof (mexp_range (f := f) x) as R. pose proof (mman_range (f := f) (fmag W x)) as Rm.
  replace (2 ^ E - 1) with (Z.ones E) by (rewrite Z.ones_equiv; lia). rewrite Z.land_ones by (destruct f; cbn; lia).
  unfold lshr_bits. rewrite (join_split Hx) at 1. unfold join.
  replace (mman f (fmag W x) + 2 ^ M * mexp f (fmag W x) + sbit f (fsign W x))
    with (mman f (fmag W x) + (mexp f (fmag W x) + (if fsign W x then 1 else 0) * 2 ^ E) * 2 ^ M).
  2:{ unfold sbit. destruct (fsign W x); rewrite ?(@pw1 f); lia. }
  rewrite Z_div_plus by lia. rewrite Z.div_small by lia. rewrite Z.add_0_l, Z_mod_plus_full. apply Z.mod_small. lia.
Qed.
Lemma mag_shift x : lshr_bits M (fmag W x) = mexp f (fmag W x). Proof. reflexivity. Qed.
Lemma lor_low m e : 0 <= m < 2 ^ M -> Z.lor m (2 ^ M * e) = m + 2 ^ M * e.
Proof.
  intros Hm. assert (D : Z.land m (2 ^ M * e) = 0).
  { apply Z.bits_inj'. intros i Hi. rewrite Z.land_spec, Z.bits_0, Z.mul_comm. destruct (Z.lt_ge_cases i M).
    - rewrite Z.mul_pow2_bits_low by lia. apply Bool.andb_false_r.
    - rewrite (@word_bits M m i); auto. destruct f; cbn; lia. }
  rewrite <- Z.lxor_lor by exact D. symmetry. now apply Z.add_nocarry_lxor.
Qed.
Lemma clear_exp x : word W x -> Z.land x (2 ^ W - 1 - (2 ^ E - 1) * 2 ^ M) = join (fsign W x) 0 (mman f (fmag W x)).
Proof.
  intros Hx. assert (C : 2 ^ W - 1 - (2 ^ E - 1) * 2 ^ M = Z.lor (2 ^ (W - 1)) (Z.ones M)) by (destruct f; reflexivity).
  rewrite C, Z.land_lor_distr_r, (land_sign Hx). pose proof (mman_range (f := f) (fmag W x)) as R. pose proof (@mm_pos f).
  rewrite Z.land_ones by (destruct f; cbn; lia).
  replace (x mod 2 ^ M) with (mman f (fmag W x)).
  2:{ unfold mman, fmag. rewrite (@pw1 f). rewrite Z.rem_mul_r by (pose proof ee_pos; lia).
      rewrite Z.mul_comm, Z_mod_plus_full. apply Zmod_mod. }
  rewrite Z.lor_comm, sign_mag_lor. { unfold join, sbit. lia. }
  pose proof (em_range (e := 0) ltac:(pose proof ee_pos; lia) R). lia.
Qed.
Lemma set_exp s e m : 0 <= e < 2 ^ E -> 0 <= m < 2 ^ M -> Z.lor (join s 0 m) (2 ^ M * e) = join s e m.
Proof.
  intros He Hm. unfold join at 1. rewrite Z.mul_0_r, Z.add_0_r. unfold sbit.
  assert (R0 : 0 <= m < 2 ^ (W - 1)). { pose proof (em_range (e := 0) ltac:(pose proof ee_pos; lia) Hm). lia. }
  rewrite <- (sign_mag_lor s R0). rewrite <- Z.lor_assoc, (Z.lor_comm (if s then _ else _)), Z.lor_assoc.
  rewrite lor_low by exact Hm. rewrite (sign_mag_lor s (em_range He Hm)). reflexivity.
Qed.
Lemma shl_exp e : 0 <= e < 2 ^ E -> shl_bits W M e = 2 ^ M * e.
Proof. intros He. unfold shl_bits. rewrite Z.mod_small. { lia. } pose proof (@pw f). pose proof (@pw1 f). pose proof (@mm_pos f). nia. Qed.

Definition sgnr (s : bool) (r : R) : R := if s then (- r)%R else r.
Lemma sgnr_mul s r q : sgnr s (r * q) = (sgnr s r * q)%R. Proof. destruct s; cbn; lra. Qed.
Lemma sgnr_abs s r : (0 <= r)%R -> Rabs (sgnr s r) = r.
Proof. intros H. destruct s; cbn; rewrite ?Rabs_Ropp; apply Rabs_pos_eq, H. Qed.
Lemma join_fin s e m : 0 <= e < 2 ^ E - 1 -> 0 <= m < 2 ^ M -> isfin f (join s e m) = true.
Proof.
  intros He Hm. rewrite isfin_spec, fin_fields by (apply join_word; lia). rewrite join_mag, me_exp by lia. lia.
Qed.
Lemma join_val s e m : 1 <= e < 2 ^ E - 1 -> 0 <= m < 2 ^ M ->
  val f (join s e m) = sgnr s (IZR (m + 2 ^ M) * bpow radix2 (e + emin f - 1)).
Proof.
  intros He Hm. rewrite val_mag by (try apply join_word; try apply join_fin; lia).
  rewrite join_mag, join_sign by lia. unfold mval, msig, mex. rewrite me_exp, me_man by lia.
  replace (e =? 0) with false by lia. replace (Z.max e 1) with e by lia. destruct s; reflexivity.
Qed.
Lemma join_val0 s m : 0 <= m < 2 ^ M -> val f (join s 0 m) = sgnr s (IZR m * bpow radix2 (emin f)).
Proof.
  intros Hm. pose proof ee_pos. rewrite val_mag by (try apply join_word; try apply join_fin; lia).
  rewrite join_mag, join_sign by lia. unfold mval, msig, mex. rewrite me_exp, me_man by lia.
  change (0 =? 0) with true. change (Z.max 0 1 + emin f - 1) with (1 + emin f - 1). replace (1 + emin f - 1) with (emin f) by lia. destruct s; reflexivity.
Qed.
Lemma sig_bounds m e : 0 <= m < 2 ^ M -> (bpow radix2 (M + e) <= IZR (m + 2 ^ M) * bpow radix2 e < bpow radix2 (M + 1 + e))%R.
Proof.
  intros Hm. rewrite !bpow_plus. pose proof (@mw_pos f). rewrite <- (IZR_Zpower radix2 M) by lia. change (bpow radix2 1) with 2%R. change (Zpower radix2 M) with (2 ^ M).
  rewrite plus_IZR. assert (0 <= IZR m < IZR (2 ^ M))%R. { split; [apply IZR_le|apply IZR_lt]; lia. }
  pose proof (bpow_gt_0 radix2 e). change (radix_val radix2) with 2. nra.
Qed.

(** rounding bounds *)
Lemma rnd_le_bpow r e : emin f <= e -> (Rabs r <= bpow radix2 e)%R -> (Rabs (rnd f r) <= bpow radix2 e)%R.
Proof.
  intros He Hr. apply abs_round_le_generic; auto; try typeclasses eauto.
  apply generic_format_bpow. unfold SpecFloat.fexp, SpecFloat.emin. unfold emin in He. pose proof (Hprec f). unfold Prec_gt_0 in *. lia.
Qed.
Lemma rnd_ge_bpow r e : emin f <= e -> (bpow radix2 e <= Rabs r)%R -> (bpow radix2 e <= Rabs (rnd f r))%R.
Proof.
  intros He Hr. apply abs_round_ge_generic; auto; try typeclasses eauto.
  apply generic_format_bpow. unfold SpecFloat.fexp, SpecFloat.emin. unfold emin in He. pose proof (Hprec f). unfold Prec_gt_0 in *. lia.
Qed.
Lemma rnd_tiny r : (Rabs r < bpow radix2 (emin f - 1))%R -> rnd f r = 0%R.
Proof.
  intros Hr. destruct (Req_dec r 0) as [-> | N]. { unfold rnd. apply round_0. typeclasses eauto. }
  destruct (mag radix2 r) as [e He]. specialize (He N). cbn in He. unfold rnd.
  apply (@round_N_small radix2 fexp (fun x => negb (Z.even x)) r e He).
  unfold SpecFloat.fexp, SpecFloat.emin. assert (e <= emin f - 1).
  { assert (bpow radix2 (e - 1) < bpow radix2 (emin f - 1))%R by lra. apply lt_bpow in H. lia. }
  unfold emin in *. lia.
Qed.
(** products with a small integer significand are exact *)
Lemma fmt_F2R m e : Z.abs m < 2 ^ prec f -> emin f <= e -> generic_format radix2 fexp (IZR m * bpow radix2 e).
Proof.
  intros Hm He. change (IZR m * bpow radix2 e)%R with (F2R (Float radix2 m e)).
  apply (generic_format_FLT radix2 (emin f) (prec f)). exists (Float radix2 m e); auto.
Qed.
End Fields.
Arguments join : clear implicits.
