(** Facts about bit patterns and their values. *)
From Coq Require Import ZifyBool Reals Lra.
From Flocq Require Import Core IEEE754.BinarySingleNaN IEEE754.Binary IEEE754.Bits.
From Verif Require Import Base Cxx Spec X86Vec Fp.
Set Implicit Arguments.
Open Scope Z_scope.

Section F.
Context {f : fmt}.
Local Notation W := (fw f).
Local Notation M := (mw f).
Local Notation E := (eb f).

Lemma mant_mw : mant W = M. Proof. destruct f; reflexivity. Qed.
Lemma fw_split : W = M + E + 1. Proof. destruct f; reflexivity. Qed.
Lemma mw_pos : 0 < M. Proof. apply Hmw. Qed.
Lemma eb_pos : 1 < E. Proof. destruct f; reflexivity. Qed.
Lemma mm_pos : 0 < 2 ^ M. Proof. destruct f; reflexivity. Qed.
Lemma pw1 : 2 ^ (W - 1) = 2 ^ M * 2 ^ E. Proof. destruct f; reflexivity. Qed.
Lemma pw : 2 ^ W = 2 * 2 ^ (W - 1). Proof. destruct f; reflexivity. Qed.
Lemma finf_alt : finf W = 2 ^ M * (2 ^ E - 1). Proof. destruct f; reflexivity. Qed.
Lemma emin_alt : SpecFloat.emin (prec f) (emax f) = 3 - emax f - prec f. Proof. reflexivity. Qed.
Lemma fmt_of_fw : fmt_of W = f. Proof. destruct f; reflexivity. Qed.

(** exponent and mantissa fields of a magnitude *)
Definition mexp (k : Z) : Z := k / 2 ^ M.
Definition mman (k : Z) : Z := k mod 2 ^ M.
Definition emin : Z := 3 - emax f - prec f.
(** significand and exponent of the magnitude [k] *)
Definition msig (k : Z) : Z := if mexp k =? 0 then mman k else mman k + 2 ^ M.
Definition mex (k : Z) : Z := Z.max (mexp k) 1 + emin - 1.
(** value of a magnitude, of a signed key *)
Definition mval (k : Z) : R := (IZR (msig k) * bpow radix2 (mex k))%R.
Definition kval (k : Z) : R := if k <? 0 then (- mval (- k))%R else mval k.

Lemma mval_F2R k : mval k = F2R (Float radix2 (msig k) (mex k)). Proof. reflexivity. Qed.

Lemma word_split x : word W x -> 0 <= fmag W x < 2 ^ (W - 1) /\ x = fmag W x + (if fsign W x then 2 ^ (W - 1) else 0).
Proof.
  unfold word, fmag, fsign. intros H. rewrite pw in H. assert (P : 0 < 2 ^ (W - 1)) by (destruct f; reflexivity).
  set (h := 2 ^ (W - 1)) in *. split. { apply Z.mod_pos_bound; lia. }
  destruct (h <=? x) eqn:Hc.
  - replace x with (x - h + 1 * h) at 2 by lia. rewrite Z_mod_plus_full, Z.mod_small by lia. lia.
  - rewrite Z.mod_small by lia. lia.
Qed.

Lemma mexp_range x : 0 <= mexp (fmag W x) < 2 ^ E.
Proof.
  unfold mexp. pose proof mm_pos. assert (0 <= fmag W x < 2 ^ (W - 1)) by (apply Z.mod_pos_bound; destruct f; reflexivity).
  rewrite pw1 in H0. split. { apply Z.div_pos; lia. }
  apply Z.div_lt_upper_bound; lia.
Qed.

Lemma mman_range k : 0 <= mman k < 2 ^ M. Proof. apply Z.mod_pos_bound, mm_pos. Qed.
Lemma mag_split k : k = 2 ^ M * mexp k + mman k.
Proof. unfold mexp, mman. pose proof mm_pos. apply Z.div_mod. lia. Qed.

(** the decoder in terms of the fields *)
Lemma dec_FF x : word W x ->
  B2FF _ _ (dec f x) =
    (let s := fsign W x in let k := fmag W x in
     if mexp k =? 2 ^ E - 1 then
       match mman k with Z0 => F754_infinity s | Zpos p => F754_nan s p | Zneg _ => F754_nan false 1 end
     else match msig k with Z0 => F754_zero s | Zpos p => F754_finite s p (mex k) | Zneg _ => F754_nan false 1 end).
Proof.
  intros Hx. unfold dec, binary_float_of_bits. rewrite B2FF_FF2B. unfold binary_float_of_bits_aux, split_bits.
  assert (Hs : (2 ^ M * 2 ^ E <=? x) = fsign W x) by (unfold fsign; now rewrite pw1).
  assert (Hm : x mod 2 ^ M = mman (fmag W x)).
  { unfold mman, fmag. rewrite pw1.
    pose proof mm_pos. assert (0 < 2 ^ E) by (destruct f; reflexivity).
    rewrite Z.rem_mul_r by lia. rewrite (Z.mul_comm (2 ^ M)), Z_mod_plus_full, Z.mod_mod by lia. reflexivity. }
  assert (He : (x / 2 ^ M) mod 2 ^ E = mexp (fmag W x)).
  { unfold mexp, fmag. rewrite pw1. pose proof mm_pos. assert (0 < 2 ^ E) by (destruct f; reflexivity).
    rewrite Z.rem_mul_r by lia. rewrite (Z.mul_comm (2 ^ M)), Z_div_plus by lia.
    rewrite (Z.div_small (x mod 2 ^ M)) by (apply Z.mod_pos_bound; lia). reflexivity. }
  rewrite Hs, Hm, He. cbn zeta.
  pose proof (mexp_range x) as R1. pose proof (mman_range (fmag W x)) as R2.
  set (k := fmag W x) in *.
  unfold msig, mex.
  assert (HE : 1 < 2 ^ E - 1) by (destruct f; reflexivity).
  destruct (mexp k =? 0) eqn:H0.
  - assert (mexp k = 0) by lia. rewrite H. change (Zeq_bool 0 0) with true. cbn iota.
    replace (0 =? 2 ^ E - 1) with false by lia. change (Z.max 0 1) with 1.
    destruct (mman k); try reflexivity. unfold emin. change (SpecFloat.emin (M + 1) (2 ^ (E - 1))) with (3 - emax f - prec f).
    f_equal. lia.
  - assert (Hz : Zeq_bool (mexp k) 0 = false) by (destruct (Zeq_bool (mexp k) 0) eqn:Q; [apply Zeq_bool_eq in Q; lia | reflexivity]).
    rewrite Hz.
    replace (Zeq_bool (mexp k) (2 ^ E - 1)) with (mexp k =? 2 ^ E - 1).
    2:{ destruct (Zeq_bool (mexp k) (2 ^ E - 1)) eqn:Q. apply Zeq_bool_eq in Q; lia. apply Zeq_bool_neq in Q; lia. }
    destruct (mexp k =? 2 ^ E - 1); [reflexivity|].
    pose proof mm_pos.
    destruct (mman k + 2 ^ M) eqn:Q; try lia.
    f_equal. unfold emin. change (SpecFloat.emin (M + 1) (2 ^ (E - 1))) with (3 - emax f - prec f). lia.
Qed.

Lemma nan_fields x : word W x -> fnan W x = (mexp (fmag W x) =? 2 ^ E - 1) && negb (mman (fmag W x) =? 0).
Proof.
  intros Hx. unfold fnan. rewrite finf_alt. pose proof (mag_split (fmag W x)) as S. pose proof (mman_range (fmag W x)).
  pose proof (mexp_range x). set (e := mexp _) in *. set (m := mman _) in *. pose proof mm_pos.
  rewrite S. destruct (e =? 2 ^ E - 1) eqn:Q; cbn [andb].
  - assert (Q' : e = 2 ^ E - 1) by lia. rewrite Q'. lia.
  - assert (e + 1 <= 2 ^ E - 1) by lia. apply Z.ltb_ge. nia.
Qed.
Lemma fin_fields x : word W x -> (fmag W x <? finf W) = negb (mexp (fmag W x) =? 2 ^ E - 1).
Proof.
  intros Hx. rewrite finf_alt. pose proof (mag_split (fmag W x)) as S. pose proof (mman_range (fmag W x)).
  pose proof (mexp_range x). set (e := mexp _) in *. set (m := mman _) in *. pose proof mm_pos.
  rewrite S. destruct (e =? 2 ^ E - 1) eqn:Q; cbn [negb].
  - assert (Q' : e = 2 ^ E - 1) by lia. rewrite Q'. lia.
  - assert (e + 1 <= 2 ^ E - 1) by lia. apply Z.ltb_lt. nia.
Qed.

Lemma isfin_spec x : word W x -> isfin f x = (fmag W x <? finf W).
Proof.
  intros Hx. unfold isfin. rewrite <- is_finite_B2FF, (dec_FF Hx), (fin_fields Hx). cbn zeta.
  destruct (mexp _ =? 2 ^ E - 1); cbn [negb].
  - destruct (mman _) eqn:Q; try reflexivity.
  - pose proof (mman_range (fmag W x)). pose proof mm_pos.
    assert (0 <= msig (fmag W x)) by (unfold msig; destruct (mexp (fmag W x) =? 0); lia).
    destruct (msig _); try reflexivity; lia.
Qed.
Lemma isnan_spec x : word W x -> isnanb f x = fnan W x.
Proof.
  intros Hx. unfold isnanb. rewrite <- is_nan_B2FF, (dec_FF Hx), (nan_fields Hx). cbn zeta.
  pose proof (mman_range (fmag W x)). pose proof mm_pos.
  destruct (mexp _ =? 2 ^ E - 1); cbn [andb].
  - destruct (mman _) eqn:Q; try reflexivity; lia.
  - assert (0 <= msig (fmag W x)) by (unfold msig; destruct (mexp (fmag W x) =? 0); lia).
    destruct (msig _); try reflexivity; lia.
Qed.
Lemma Bsign_FF (x : bfl f) : Bsign _ _ x = sign_FF (B2FF _ _ x).
Proof. destruct x; reflexivity. Qed.
Lemma sign_spec x : word W x -> Bsign _ _ (dec f x) = fsign W x.
Proof.
  intros Hx. rewrite Bsign_FF, (dec_FF Hx). cbn zeta.
  pose proof (mman_range (fmag W x)). pose proof mm_pos.
  destruct (mexp _ =? 2 ^ E - 1).
  - destruct (mman _) eqn:Q; try reflexivity; lia.
  - assert (0 <= msig (fmag W x)) by (unfold msig; destruct (mexp (fmag W x) =? 0); lia).
    destruct (msig _); try reflexivity; lia.
Qed.

Lemma fmag_nonneg x : 0 <= fmag W x. Proof. apply Z.mod_pos_bound. destruct f; reflexivity. Qed.

Lemma msig_nonneg k : 0 <= msig k.
Proof. unfold msig. pose proof (mman_range k). pose proof mm_pos. destruct (_ =? 0); lia. Qed.
Lemma mval_nonneg k : (0 <= mval k)%R.
Proof. unfold mval. apply Rmult_le_pos. { apply IZR_le, msig_nonneg. } apply bpow_ge_0. Qed.

Lemma val_mag x : word W x -> isfin f x = true ->
  val f x = (if fsign W x then - mval (fmag W x) else mval (fmag W x))%R.
Proof.
  intros Hx Hf. unfold val. rewrite <- FF2R_B2FF, (dec_FF Hx). cbn zeta.
  rewrite (isfin_spec Hx), (fin_fields Hx) in Hf. apply Bool.negb_true_iff in Hf. rewrite Hf.
  unfold mval. pose proof (msig_nonneg (fmag W x)).
  destruct (msig (fmag W x)) eqn:Q; try lia; cbn [FF2R].
  - rewrite Rmult_0_l. destruct (fsign W x); lra.
  - unfold F2R. cbn [Fnum Fexp]. destruct (fsign W x); cbn [SpecFloat.cond_Zopp cond_Zopp].
    + change (cond_Zopp true (Zpos p)) with (- Zpos p). rewrite opp_IZR. lra.
    + change (cond_Zopp false (Zpos p)) with (Zpos p). lra.
Qed.

Lemma mval_0 : mval 0 = 0%R.
Proof. unfold mval. replace (msig 0) with 0. lra. unfold msig, mexp, mman. rewrite Z.div_0_l, Z.mod_0_l by (pose proof mm_pos; lia). reflexivity. Qed.

Lemma val_key x : word W x -> isfin f x = true -> val f x = kval (fkey W x).
Proof.
  intros Hx Hf. rewrite (val_mag Hx Hf). unfold kval, fkey. pose proof (fmag_nonneg x).
  destruct (fsign W x).
  - destruct (- fmag W x <? 0) eqn:Q. { now rewrite Z.opp_involutive. }
    assert (fmag W x = 0) by lia. rewrite H0. cbn [Z.opp]. rewrite mval_0. lra.
  - destruct (fmag W x <? 0) eqn:Q; [lia|reflexivity].
Qed.

(** consecutive magnitudes differ by one unit in the last place *)
Lemma mval_succ k : 0 <= k -> mval (k + 1) = (mval k + bpow radix2 (mex k))%R.
Proof.
  intros Hk. pose proof mm_pos as Pm. pose proof (mag_split k) as S. pose proof (mman_range k) as R.
  assert (Ne : 0 <= mexp k) by (unfold mexp; apply Z.div_pos; lia).
  destruct (Z.eq_dec (mman k) (2 ^ M - 1)) as [C | C].
  - assert (E1 : mexp (k + 1) = mexp k + 1).
    { unfold mexp at 1. replace (k + 1) with ((mexp k + 1) * 2 ^ M) by lia.
      apply Z.div_mul. lia. }
    assert (E2 : mman (k + 1) = 0).
    { unfold mman at 1. replace (k + 1) with ((mexp k + 1) * 2 ^ M) by lia.
      apply Z.mod_mul. lia. }
    unfold mval, msig, mex. rewrite E1, E2, C.
    replace (mexp k + 1 =? 0) with false by lia.
    destruct (mexp k =? 0) eqn:Q.
    + assert (mexp k = 0) by lia. rewrite H. change (Z.max (0 + 1) 1) with 1. change (Z.max 0 1) with 1.
      rewrite minus_IZR. replace (0 + 2 ^ M) with (2 ^ M) by lia. lra.
    + replace (Z.max (mexp k + 1) 1) with (Z.max (mexp k) 1 + 1) by lia.
      replace (Z.max (mexp k) 1 + 1 + emin - 1) with ((Z.max (mexp k) 1 + emin - 1) + 1) by lia.
      rewrite bpow_plus_1. replace (0 + 2 ^ M) with (2 ^ M) by lia. rewrite plus_IZR, minus_IZR.
      change (IZR radix2) with 2%R. lra.
  - assert (E1 : mexp (k + 1) = mexp k).
    { unfold mexp at 1. replace (k + 1) with (mman k + 1 + mexp k * 2 ^ M) by lia.
      rewrite Z_div_plus by lia. rewrite Z.div_small by lia. lia. }
    assert (E2 : mman (k + 1) = mman k + 1).
    { unfold mman at 1. replace (k + 1) with (mman k + 1 + mexp k * 2 ^ M) by lia.
      rewrite Z_mod_plus_full. rewrite Z.mod_small by lia. lia. }
    unfold mval, msig, mex. rewrite E1, E2. destruct (mexp k =? 0); rewrite !plus_IZR; lra.
Qed.

Lemma mval_lt i j : 0 <= i < j -> (mval i < mval j)%R.
Proof.
  intros [Hi Hj]. replace j with (i + 1 + Z.of_nat (Z.to_nat (j - i - 1))) by lia.
  generalize (Z.to_nat (j - i - 1)). clear j Hj. induction n as [|n IH].
  - rewrite Z.add_0_r, mval_succ by lia. pose proof (bpow_gt_0 radix2 (mex i)). lra.
  - replace (i + 1 + Z.of_nat (S n)) with (i + 1 + Z.of_nat n + 1) by lia.
    rewrite mval_succ by lia. pose proof (bpow_gt_0 radix2 (mex (i + 1 + Z.of_nat n))). lra.
Qed.
Lemma kval_lt i j : i < j -> (kval i < kval j)%R.
Proof.
  intros H. unfold kval. destruct (i <? 0) eqn:A, (j <? 0) eqn:B; try lia.
  - apply Ropp_lt_contravar, mval_lt. lia.
  - assert (0 < mval (- i))%R by (rewrite <- mval_0; apply mval_lt; lia).
    pose proof (mval_nonneg j). lra.
  - apply mval_lt. lia.
Qed.
Lemma kval_compare i j : Rcompare (kval i) (kval j) = (i ?= j).
Proof.
  destruct (Z.compare_spec i j).
  - subst. apply Rcompare_Eq. reflexivity.
  - apply Rcompare_Lt. now apply kval_lt.
  - apply Rcompare_Gt. now apply kval_lt.
Qed.
Lemma kval_lt_iff i j : (kval i < kval j)%R <-> i < j.
Proof. rewrite <- Z.compare_lt_iff, <- kval_compare. split. apply Rcompare_Lt. apply Rcompare_Lt_inv. Qed.
Lemma kval_le_iff i j : (kval i <= kval j)%R <-> i <= j.
Proof.
  split; intros H.
  - destruct (Z_le_gt_dec i j); [assumption|]. assert (kval j < kval i)%R by (apply kval_lt; lia). lra.
  - destruct (Z.eq_dec i j) as [-> | N]; [lra|]. left. apply kval_lt. lia.
Qed.
Lemma kval_eq_iff i j : kval i = kval j <-> i = j.
Proof. rewrite <- Z.compare_eq_iff, <- kval_compare. split. apply Rcompare_Eq. apply Rcompare_Eq_inv. Qed.

(** Comparison of arbitrary patterns *)
Lemma dec_inf x : word W x -> fmag W x = finf W -> dec f x = B754_infinity _ _ (fsign W x).
Proof.
  intros Hx H. assert (B2FF _ _ (dec f x) = B2FF _ _ (B754_infinity (prec f) (emax f) (fsign W x))).
  { rewrite (dec_FF Hx). cbn zeta. rewrite H. unfold mexp, mman. rewrite finf_alt, Z.mul_comm, Z.div_mul, Z.mod_mul by (pose proof mm_pos; lia).
    rewrite Z.eqb_refl. reflexivity. }
  now apply B2FF_inj in H0.
Qed.
Lemma fclass x : word W x -> (fnan W x = true /\ isfin f x = false) \/ (fnan W x = false /\ fmag W x = finf W /\ isfin f x = false)
   \/ (fnan W x = false /\ fmag W x < finf W /\ isfin f x = true).
Proof.
  intros Hx. rewrite (isfin_spec Hx). unfold fnan.
  destruct (Z.lt_trichotomy (fmag W x) (finf W)) as [H|[H|H]].
  - right; right. lia.
  - right; left. lia.
  - left. lia.
Qed.

Lemma fcmp_spec a b : word W a -> word W b ->
  fcmp f a b = if fnan W a || fnan W b then None else Some (fkey W a ?= fkey W b).
Proof.
  intros Ha Hb. unfold fcmp.
  pose proof (fmag_nonneg a) as Na. pose proof (fmag_nonneg b) as Nb.
  destruct (fclass Ha) as [[A1 A2]|[(A1 & A2 & A3)|(A1 & A2 & A3)]]; rewrite A1; cbn [orb].
  - rewrite <- (isnan_spec Ha) in A1. unfold isnanb in A1. destruct (dec f a); try discriminate. reflexivity.
  - destruct (fclass Hb) as [[B1 B2]|[(B1 & B2 & B3)|(B1 & B2 & B3)]]; rewrite B1; cbn [orb].
    + rewrite <- (isnan_spec Hb) in B1. unfold isnanb in B1. destruct (dec f b); try discriminate. now destruct (dec f a).
    + rewrite (dec_inf Ha A2), (dec_inf Hb B2). unfold fkey. rewrite A2, B2. assert (0 < finf W) by (destruct f; reflexivity).
      unfold Bcompare. cbn [B2BSN]. destruct (fsign W a), (fsign W b); cbn; destruct (Z.compare_spec (- finf W) (finf W)), (Z.compare_spec (finf W) (- finf W));
      rewrite ?Z.compare_refl; try reflexivity; lia.
    + rewrite (dec_inf Ha A2). unfold isfin in B3. unfold fkey. rewrite A2.
      unfold Bcompare. destruct (dec f b); try discriminate; cbn [B2BSN]; destruct (fsign W a); cbn;
        f_equal; symmetry; (apply Z.compare_lt_iff || apply Z.compare_gt_iff); destruct (fsign W b); lia.
  - destruct (fclass Hb) as [[B1 B2]|[(B1 & B2 & B3)|(B1 & B2 & B3)]]; rewrite B1; cbn [orb].
    + rewrite <- (isnan_spec Hb) in B1. unfold isnanb in B1. destruct (dec f b); try discriminate. now destruct (dec f a).
    + rewrite (dec_inf Hb B2). unfold isfin in A3. unfold fkey. rewrite B2.
      unfold Bcompare. destruct (dec f a); try discriminate; cbn [B2BSN]; destruct (fsign W b); cbn;
        f_equal; symmetry; (apply Z.compare_lt_iff || apply Z.compare_gt_iff); destruct (fsign W a); lia.
    + rewrite Bcompare_correct by assumption. f_equal. change (B2R _ _ (dec f a)) with (val f a).
      change (B2R _ _ (dec f b)) with (val f b). rewrite (val_key Ha A3), (val_key Hb B3). apply kval_compare.
Qed.

(** Encoding *)
Lemma enc_dec x : word W x -> enc f (dec f x) = x.
Proof.
  intros Hx. unfold enc, dec. apply bits_of_binary_float_of_bits. unfold word in Hx. now rewrite fw_split in Hx.
Qed.
Lemma dec_enc (y : bfl f) : dec f (enc f y) = y.
Proof. apply binary_float_of_bits_of_binary_float. Qed.
Lemma enc_word (y : bfl f) : word W (enc f y).
Proof. unfold word. rewrite fw_split. apply bits_of_binary_float_range; first [apply Hmw | apply Heb]. Qed.

(** Same value, same sign: same bits. *)
Lemma bits_inj a b : word W a -> word W b -> isfin f a = true -> isfin f b = true -> val f a = val f b ->
  fsign W a = fsign W b -> a = b.
Proof.
  intros Ha Hb Fa Fb V S. rewrite <- (enc_dec Ha), <- (enc_dec Hb). f_equal.
  apply B2R_Bsign_inj; try assumption. now rewrite (sign_spec Ha), (sign_spec Hb).
Qed.
End F.
Arguments mexp f k : clear implicits. Arguments mman f k : clear implicits. Arguments emin f : clear implicits.
Arguments msig f k : clear implicits. Arguments mex f k : clear implicits. Arguments mval f k : clear implicits.
Arguments kval f k : clear implicits.
Close Scope Z_scope.
