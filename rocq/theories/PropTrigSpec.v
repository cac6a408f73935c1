(** C56: special values of sin, cos, tan, asin, acos and atan. *)
From Coq Require Import ZifyBool ZifyNat Reals Lra.
From Flocq Require Import Core IEEE754.BinarySingleNaN IEEE754.Binary.
From Verif Require Import Base Cxx Spec X86Vec X86 X86Lemmas X86Proofs X86Masks X86Ops X86Shift Fp FpLemmas FpOps FKern FMath FMathProofs FLane FFields FManip FManipLanes LogbProofs
  PropX86 PropFloat PropManip Cvt CvtProofs PropCvt Round RoundProofs RoundLanes RoundSem PropRound FArith PropArith FCvt Hypot HypotProofs HypotSem PropHypot PropIeee LogTab Log LogProofs PropLog TrigTab Trig TrigProofs PropTrig FErr IvPoly PiBound SinPoly SinEval SinRed.
Set Implicit Arguments.
Open Scope Z_scope.

(** *** Specification *)
(** [y] is the floating-point number nearest to [r] *)
Definition nearest (f : fmt) (r : R) (y : Z) : Prop := isfin f y = true /\ val f y = rnd f r.
(** |x| > 1 *)
Definition beyond1 (f : fmt) (x : Z) : Prop := isinf f x \/ (isfin f x = true /\ (1 < Rabs (val f x))%R).

(** *** Proofs *)
Lemma land_bit a n : 0 <= n -> Z.land a (2 ^ n) = if Z.testbit a n then 2 ^ n else 0.
Proof.
  intros Hn. apply Z.bits_inj'. intros k Hk. rewrite Z.land_spec, Z.pow2_bits_eqb by auto.
  destruct (Z.eqb_spec n k) as [->|E]. { rewrite andb_true_r. destruct (Z.testbit a k). now rewrite Z.pow2_bits_eqb, Z.eqb_refl. now rewrite Z.bits_0. }
  rewrite andb_false_r. destruct (Z.testbit a n). rewrite Z.pow2_bits_eqb by auto. symmetry. now apply Z.eqb_neq. now rewrite Z.bits_0.
Qed.

Section N.
Context {X : xty} (HX : xty_ok X) (HF : is_int (xT X) = false) (fm he : bool) (nn : nans).
Local Notation f := (xf X).
Local Notation W := (fw f).
Local Notation w_fw := (xw_fw HX HF).
Local Notation nan x := (fnan W x = true).
Local Notation fma := (fmadd1 (X := X) nn fm).

Lemma fdiv_nan a b : word W a -> word W b -> nan a \/ nan b -> nan (fdiv nn f a b).
Proof.
  intros Ha Hb H. rewrite <- (isnan_spec (fdiv_word nn (f := f) a b)). apply (proj1 (div_ok nn Ha Hb)). rewrite (isnan_spec Ha), (isnan_spec Hb). exact H.
Qed.
Lemma ffma_nan a b c : word W a -> word W b -> word W c -> nan a \/ nan b \/ nan c -> nan (ffma nn f a b c).
Proof.
  intros Ha Hb Hc H. unfold ffma. rewrite fnan_enc. rewrite <- (isnan_spec Ha), <- (isnan_spec Hb), <- (isnan_spec Hc) in H. unfold isnanb in H.
  unfold Bfma. match goal with |- context [n3 nn f ?a ?b ?c] => destruct (n3 nn f a b c) as [y Hy] end. destruct y; try discriminate Hy. clear Ha Hb Hc.
  destruct H as [H | [H | H]]; destruct (dec f a); try discriminate; destruct (dec f b); try discriminate; destruct (dec f c); try discriminate; reflexivity.
Qed.
Lemma fma_nan a b c : word W a -> word W b -> word W c -> nan a \/ nan b \/ nan c -> nan (fma a b c).
Proof.
  intros Ha Hb Hc H. unfold fmadd1. destruct fm; [now apply ffma_nan|]. apply fadd_nan; auto using fmul_word. destruct H as [H|[H|H]]; auto; left; apply fmul_nan; auto.
Qed.
Lemma fms_nan a b c : word W a -> word W b -> word W c -> nan a \/ nan b -> nan (fmsub1 (X := X) nn fm a b c).
Proof.
  intros Ha Hb Hc H. unfold fmsub1. destruct fm.
  - apply ffma_nan; auto. { apply (fneg_ok (f := f) Hc). } tauto.
  - apply fsub_nan; auto using fmul_word. left. apply fmul_nan; auto.
Qed.
Definition sgnbit (b : Z) : Prop := b = 0 \/ b = 2 ^ (W - 1).
Lemma lxor_nan x b : word W x -> sgnbit b -> nan x -> nan (Z.lxor x b).
Proof.
  intros Hx [-> | ->] N; [now rewrite Z.lxor_0_r|]. fold (flip f x). destruct (flip_ok (f := f) Hx) as (Wy & _). rewrite <- (isnan_spec Wy), flip_nan, (isnan_spec Hx) by auto. exact N.
Qed.
Lemma sgnbit_lxor a b : sgnbit a -> sgnbit b -> sgnbit (Z.lxor a b).
Proof. intros [-> | ->] [-> | ->]; rewrite ?Z.lxor_0_l, ?Z.lxor_0_r, ?Z.lxor_nilpotent; unfold sgnbit; auto. Qed.
Lemma sgnbit_w a : sgnbit a -> word W a.
Proof. intros [-> | ->]; destruct f; unfold word; cbn [fw]; lia. Qed.
Lemma b2_s i : sgnbit (bit2_1 (X := X) i).
Proof. unfold bit2_1. assert (E : Z.land i 2 = if Z.testbit i 1 then 2 else 0) by exact (@land_bit i 1 ltac:(lia)). rewrite E. unfold sgnbit. rewrite w_fw. destruct (Z.testbit i 1); [right|left]; destruct f; reflexivity. Qed.
Lemma b4_s i : sgnbit (bit4_1 (X := X) i).
Proof. unfold bit4_1. assert (E : Z.land i 4 = if Z.testbit i 2 then 4 else 0) by exact (@land_bit i 2 ltac:(lia)). rewrite E. unfold sgnbit. rewrite w_fw. destruct (Z.testbit i 2); [right|left]; destruct f; reflexivity. Qed.
Lemma sx_s x : sgnbit (sx1 (X := X) x).
Proof. unfold sx1, sbit, sgnbit. destruct (fsign _ x); auto. Qed.
Lemma cvtf_w i : word W (cvtf1 (X := X) nn i).
Proof.
  unfold cvtf1. destruct (w_cases HX HF) as [Q | Q]; rewrite <- w_fw, Q; cbn [Z.eqb Pos.eqb]; [apply (@enc_word F32)|]. destruct (good64 (X := X)); apply (@enc_word F64).
Qed.
Lemma dp_w n : word W (nth n (dp_sincos (xw X)) 0).
Proof.
  destruct (tabs_ok HX HF) as ((D & _) & _). rewrite <- w_fw. destruct (le_lt_dec (length (dp_sincos (xw X))) n) as [H|H]. { rewrite nth_overflow by auto. rewrite w_fw. apply zero_ok. }
  apply (proj1 (Forall_forall _ _) D). apply nth_In; auto.
Qed.
Lemma red_w a : word W (red1 (X := X) fm nn a).
Proof. unfold red1. cbv zeta. apply fma_word. Qed.
Lemma red_nan a : word W a -> nan a -> nan (red1 (X := X) fm nn a).
Proof. intros Ha N. unfold red1. cbv zeta. repeat (apply fma_nan; auto using cvtf_w, dp_w, fma_word; try (right; right)). Qed.
Lemma psin_nan z : word W z -> nan z -> nan (psin1 (X := X) fm nn z).
Proof. intros Hz N. unfold psin1. cbv zeta. apply fma_nan; auto using fmul_word. Qed.
Lemma pcos_nan z : word W z -> nan z -> nan (pcos1 (X := X) fm nn z).
Proof.
  intros Hz N. unfold pcos1. cbv zeta. destruct (consts_ok HX HF) as ((_ & K4 & _) & (_ & Kh & _) & (_ & _ & _ & K1 & _) & _). rewrite w_fw in *.
  apply fadd_nan; auto using fma_word. left. apply fma_nan; auto using fmul_word. right. left. apply fmul_nan; auto.
Qed.
Lemma esin_nan s a : word W a -> sgnbit s -> nan a -> nan (esin1 (X := X) fm nn s a).
Proof.
  intros Ha Hs N. unfold esin1. cbv zeta. apply lxor_nan.
  - destruct (negb _); [apply fadd_word|apply fma_word].
  - auto using sgnbit_lxor, b4_s.
  - pose proof (red_nan Ha N) as R. pose proof (red_w a) as Rw. destruct (negb _); auto using psin_nan, pcos_nan.
Qed.
Lemma ecos_nan a : word W a -> nan a -> nan (ecos1 (X := X) fm nn a).
Proof.
  intros Ha N. unfold ecos1. cbv zeta. apply lxor_nan.
  - destruct (negb _); [apply fma_word|apply fadd_word].
  - auto using sgnbit_lxor, b4_s, b2_s.
  - pose proof (red_nan Ha N) as R. pose proof (red_w a) as Rw. destruct (negb _); auto using psin_nan, pcos_nan.
Qed.
Lemma mag_nan x : nan x -> nan (fmag W x).
Proof. unfold fnan. now rewrite (mag_mag x). Qed.
Lemma nan_feq a b : nan a -> feq W a b = false.
Proof. intros H. unfold feq. now rewrite H. Qed.
(** the argument after the domain check of sin, cos and tan is a NaN *)
Lemma dom_nan x : word W x -> isnanb f x = true \/ (he = true /\ isinf f x) -> let a := dom1 (X := X) he nn (ab1 (X := X) x) in word W a /\ nan a /\ over1 (X := X) a = false.
Proof.
  intros Hx H a. pose proof (mag_word HF x) as Wm.
  assert (Q : word W a /\ nan a).
  { unfold a, dom1. rewrite (ab_mag HX HF Hx), w_fw. destruct H as [N|[-> Ix]].
    - rewrite (isnan_spec Hx) in N. apply mag_nan in N. rewrite (nan_feq _ _ N). destruct he; auto.
    - assert (E : fmag W x = finf W) by now apply (isinf_mag Hx). assert (feq W (fmag W x) (finf W) = true) as -> by (rewrite E; destruct f; reflexivity).
      split; [apply fdiv_word|]. rewrite <- (isnan_spec (fdiv_word nn (f := f) _ _)). apply inv_nan; auto. left. left. rewrite E. destruct f; reflexivity. }
  destruct Q as [Q1 Q2]. split; auto. split; auto. unfold over1. rewrite w_fw. now apply (@nan_flt X).
Qed.
Lemma nan_flt_l a b : nan a -> flt W a b = false.
Proof. intros H. unfold flt. now rewrite H. Qed.
Lemma sin_nan ls x : word W x -> isnanb f x = true \/ (he = true /\ isinf f x) -> isnanb f (sin1 (X := X) fm he nn ls x) = true.
Proof.
  intros Hx H. destruct (dom_nan Hx H) as (Wa & Na & Oa). unfold sin1. cbv zeta. rewrite Oa. rewrite isnan_spec by (apply (esin_w HX HF), sgnbit_w, sx_s). apply esin_nan; auto using sx_s.
Qed.
Lemma cos_nan lc x : word W x -> isnanb f x = true \/ (he = true /\ isinf f x) -> isnanb f (cos1 (X := X) fm he nn lc x) = true.
Proof.
  intros Hx H. destruct (dom_nan Hx H) as (Wa & Na & Oa). unfold cos1. cbv zeta. rewrite Oa. rewrite isnan_spec by (apply (ecos_w HX HF)). apply ecos_nan; auto.
Qed.
Lemma tan_nan lt x : word W x -> isnanb f x = true \/ (he = true /\ isinf f x) -> isnanb f (tan1 (X := X) fm he nn lt x) = true.
Proof.
  intros Hx H. destruct (dom_nan Hx H) as (Wa & Na & Oa). unfold tan1. cbv zeta. rewrite Oa, w_fw, nan_flt_l by auto.
  rewrite isnan_spec by apply fdiv_word. apply fdiv_nan; [apply (esin_w HX HF), sgnbit_w, sx_s|apply (ecos_w HX HF)|]. left. apply esin_nan; auto using sx_s.
Qed.
(** asin, acos *)
Lemma easin_w a s : word W a -> word W s -> word W (easin1 (X := X) fm nn a s).
Proof.
  intros Ha Hs. unfold easin1. cbv zeta. apply word_lxor; auto. { destruct f; discriminate. } destruct (flt _ _ _); auto. destruct (flt _ _ _); [apply fsub_word|apply fma_word].
Qed.
Lemma easin_nan a s : word W a -> sgnbit s -> nan a -> nan (easin1 (X := X) fm nn a s).
Proof.
  intros Ha Hs N. unfold easin1. cbv zeta. rewrite w_fw, (nan_flt_l _ _ N), (@nan_flt X a (c_five_eights W) N). apply lxor_nan; auto using fma_word. apply fma_nan; auto using fmul_word.
Qed.
(** the magnitude of x exceeds 1 *)
Lemma gt1 x : word W x -> isinf f x \/ (isfin f x = true /\ (1 < Rabs (val f x))%R) -> let a := fmag W x in
  word W a /\ (a = infs f false \/ (isfin f a = true /\ (1 < val f a)%R)) /\ flt W (fone W) a = true /\ flt W (c_five_eights W) a = true /\ flt W a (c_asin_pmin W) = false.
Proof.
  intros Hx H a. pose proof (mag_word HF x) as Wm. fold a in Wm. split; auto.
  assert (Q : word W (fone W) /\ isfin f (fone W) = true /\ val f (fone W) = 1%R) by apply fone_ok.
  destruct H as [Ix|[Fx Vx]].
  - assert (E : a = finf W) by now apply (isinf_mag Hx). rewrite E. split; [left; destruct f; reflexivity|]. destruct f; repeat split; reflexivity.
  - assert (Fa : isfin f a = true) by (rewrite (isfin_spec Wm); unfold a; rewrite mag_mag, <- (isfin_spec Hx); auto).
    assert (Va : val f a = Rabs (val f x)). { rewrite (val_mag Wm Fa), (val_mag Hx Fx). unfold a. rewrite (mag_sign HF), mag_mag. pose proof (mval_ge0 f (fin_word f Hx)). destruct (fsign _ x); [rewrite Rabs_Ropp|]; now rewrite Rabs_pos_eq. }
    destruct Q as (W1 & F1 & V1). split. { right. rewrite Va. auto. }
    destruct (consts_ok HX HF) as ((_ & _ & _ & _ & K5) & (_ & _ & _ & _ & Kp) & _). rewrite w_fw in *.
    assert (F5 : isfin f (c_five_eights W) = true /\ isfin f (c_asin_pmin W) = true) by (destruct f; split; reflexivity). destruct F5 as [F5 Fp].
    assert (V5 : (val f (c_five_eights W) <= 1 /\ val f (c_asin_pmin W) <= 1)%R).
    { rewrite <- V1. split; apply Rnot_lt_le; intros L; [assert (E : flt W (fone W) (c_five_eights W) = true) by (rewrite flt_val by auto; now apply Rlt_bool_true)
        |assert (E : flt W (fone W) (c_asin_pmin W) = true) by (rewrite flt_val by auto; now apply Rlt_bool_true)]; destruct f; discriminate E. }
    rewrite !flt_val by auto. rewrite V1, Va. repeat split; [apply Rlt_bool_true; lra|apply Rlt_bool_true; lra|apply Rlt_bool_false; lra].
Qed.
(** a negative number: below -2^e, or -inf *)
Definition neg (e : Z) (y : Z) : Prop := y = infs f true \/ (isfin f y = true /\ (val f y <= - bpow radix2 e)%R).
Lemma cr_neg e r y : emin f <= e -> (r <= - bpow radix2 e)%R -> correct_round f r y -> neg e y.
Proof.
  intros He Hr C. unfold correct_round in C. pose proof (bpow_gt_0 radix2 e) as B0. destruct (Rlt_bool _ _).
  - destruct C as [F V]. right. split; auto. rewrite V. assert (A := @rnd_ge_bpow f r e He ltac:(rewrite Rabs_left; lra)).
    assert (rnd f r <= rnd f 0)%R by (apply rnd_mono; lra). rewrite rnd_0 in H. rewrite Rabs_left1 in A by auto. lra.
  - left. rewrite C. f_equal. apply Rlt_bool_true. lra.
Qed.
Lemma neg_sqrt e y : word W y -> neg e y -> nan (fsqrt nn f y).
Proof.
  intros Hy H. rewrite <- (isnan_spec (fsqrt_word nn f y)). apply (@sqrt_ok nn f y Hy). right. destruct H as [H|[F V]]; auto. right. split; auto. pose proof (bpow_gt_0 radix2 e). lra.
Qed.
Lemma ge_succ a : word W a -> isfin f a = true -> (1 < val f a)%R -> (1 + bpow radix2 (- mw f) <= val f a)%R.
Proof.
  intros Ha Fa Va. destruct (@fone_ok f) as (W1 & F1 & V1). pose proof (val_mag Ha Fa) as E. destruct (fsign W a). { pose proof (mval_ge0 f (fin_word f Ha)). lra. }
  pose proof (fmag_range (f := f) a) as MR. assert (F0 : 0 <= fone W) by (clear; destruct f; discriminate). rewrite E in *. assert (L : (fone W + 1 <= fmag W a)%Z).
  { apply Z.le_succ_l. apply Z.nle_gt. intros L. assert (mval f (fmag W a) <= mval f (fone W))%R by (apply mval_le; lia). 
    assert (mval f (fone W) = 1)%R. { rewrite <- V1, (val_mag W1 F1). destruct f; reflexivity. } lra. }
  assert (mval f (fone W + 1) <= mval f (fmag W a))%R by (apply mval_le; lia).
  rewrite mval_succ in H by (destruct f; cbn; lia). assert (mval f (fone W) = 1)%R. { rewrite <- V1, (val_mag W1 F1). destruct f; reflexivity. }
  replace (mex f (fone W)) with (- mw f)%Z in H by (destruct f; reflexivity). lra.
Qed.
Lemma easin_over a s : word W a -> sgnbit s -> (a = infs f false \/ (isfin f a = true /\ (1 < val f a)%R)) -> flt W (c_five_eights W) a = true -> flt W a (c_asin_pmin W) = false ->
  nan (easin1 (X := X) fm nn a s).
Proof.
  intros Ha Hs C L1 L2. destruct (@fone_ok f) as (W1 & F1 & V1). destruct (consts_ok HX HF) as ((_ & K4 & _) & _ & (Ko & _) & _). rewrite w_fw in *.
  unfold easin1. cbv zeta. rewrite w_fw, L1, L2. apply lxor_nan; auto using fsub_word.
  set (a1 := fsub nn f (fone W) a). assert (Wa1 : word W a1) by apply fsub_word.
  assert (N1 : neg (- mw f) a1).
  { destruct (sub_ok nn W1 Ha) as (_ & S1 & _ & S2 & _). destruct C as [E|[Fa Va]].
    - left. unfold a1. rewrite S2; auto. { rewrite E. unfold sg. destruct f; reflexivity. } rewrite E. left; reflexivity.
    - apply cr_neg with (val f (fone W) - val f a)%R; [clear; destruct f; cbv; discriminate| |apply S1; auto]. rewrite V1. pose proof (ge_succ Ha Fa Va). lra. }
  set (d := fadd nn f a1 a1). assert (Wd : word W d) by apply fadd_word.
  assert (N2 : neg (- mw f) d).
  { destruct (add_ok nn Wa1 Wa1) as (_ & S1 & _ & _ & S2). destruct N1 as [E|[Fa Va]].
    - left. rewrite E in S2. unfold d. rewrite E. rewrite eqb_reflx in S2. apply S2; right; reflexivity.
    - apply cr_neg with (val f a1 + val f a1)%R; [clear; destruct f; cbv; discriminate| |apply S1; auto]. pose proof (bpow_gt_0 radix2 (- mw f)). lra. }
  assert (Nq := neg_sqrt Wd N2). set (q := fsqrt nn f d) in *. assert (Wq : word W q) by apply fsqrt_word.
  assert (Nb : nan (fsub nn f (c_pio4 W) q)) by (apply fsub_nan; auto).
  apply fsub_nan. { apply fadd_word. } { unfold fmsub1. destruct fm; [apply ffma_word|apply fsub_word]. } left. apply fadd_nan; auto using fsub_word.
Qed.
Lemma adom_over x : word W x -> beyond1 f x -> let a := adom1 (X := X) he nn (fmag W x) in word W a /\ (nan a \/ (a = fmag W x /\ (a = infs f false \/ (isfin f a = true /\ (1 < val f a)%R)))).
Proof.
  intros Hx H. destruct (gt1 Hx H) as (Wm & Cm & L1 & L2 & L3). unfold adom1. rewrite w_fw, L1. destruct he; cbv zeta; [|auto]. split; [apply fdiv_word|]. left.
  rewrite <- (isnan_spec (fdiv_word nn (f := f) _ _)). apply inv_nan; auto. destruct Cm as [-> | [Fm _]]; auto. left. left. reflexivity.
Qed.
Lemma adom_nan x : word W x -> nan x -> adom1 (X := X) he nn (fmag W x) = fmag W x.
Proof. intros Hx N. unfold adom1. rewrite w_fw. apply mag_nan in N. rewrite (@nan_flt X) by auto. now destruct he. Qed.
Lemma asin_inv x : word W x -> isnanb f x = true \/ beyond1 f x -> isnanb f (asin1 (X := X) fm he nn x) = true.
Proof.
  intros Hx H. unfold asin1. rewrite (ab_mag HX HF Hx). pose proof (mag_word HF x) as Wm. destruct H as [N|H].
  - rewrite (isnan_spec Hx) in N. rewrite adom_nan by auto. rewrite isnan_spec by (apply easin_w; auto; apply sgnbit_w, sx_s). apply easin_nan; auto using sx_s, mag_nan.
  - destruct (adom_over Hx H) as [Wa Ca]. rewrite isnan_spec by (apply easin_w; auto; apply sgnbit_w, sx_s). destruct Ca as [Na|[E Ca]]. { apply easin_nan; auto using sx_s. }
    destruct (gt1 Hx H) as (_ & _ & L1 & L2 & L3). rewrite E in *. apply easin_over; auto using sx_s.
Qed.
Lemma half_over a : word W a -> (a = infs f false \/ (isfin f a = true /\ (1 < val f a)%R)) -> neg (- mw f - 1) (fma a (c_mhalf W) (c_half W)).
Proof.
  intros Ha C. destruct (consts_ok HX HF) as (_ & (Kh & Km & _) & _). rewrite w_fw in *.
  destruct C as [-> | [Fa Va]].
  - left. unfold fmadd1. clear. destruct nn, fm, f; vm_compute; reflexivity.
  - apply (ge_succ Ha Fa) in Va.
    assert (Vh : val f (c_half W) = (1/2)%R /\ val f (c_mhalf W) = (-(1/2))%R /\ isfin f (c_half W) = true /\ isfin f (c_mhalf W) = true).
    { split; [|split; [|destruct f; split; reflexivity]].
      - destruct f; [rewrite (@val_cst F32 _ 8388608 (-24)) by (try reflexivity; unfold word; cbn; lia)|rewrite (@val_cst F64 _ 4503599627370496 (-53)) by (try reflexivity; unfold word; cbn; lia)]; cbn; lra.
      - destruct f; [rewrite (@val_cst F32 _ (-8388608) (-24)) by (try reflexivity; unfold word; cbn; lia)|rewrite (@val_cst F64 _ (-4503599627370496) (-53)) by (try reflexivity; unfold word; cbn; lia)]; cbn; lra. }
    destruct Vh as (Vh & Vm & Fh & Fm). assert (Em : emin f <= - mw f - 1) by (clear; destruct f; cbv; discriminate).
    assert (B : bpow radix2 (- mw f) = (2 * bpow radix2 (- mw f - 1))%R) by (replace (- mw f) with (1 + (- mw f - 1)) by lia; rewrite bpow_plus; replace (1 + (- mw f - 1) - 1) with (- mw f - 1) by lia; reflexivity).
    unfold fmadd1. destruct fm.
    + apply cr_neg with (val f a * val f (c_mhalf W) + val f (c_half W))%R; auto; [|apply fma_ok; auto; split; auto]. rewrite Vh, Vm. lra.
    + destruct (mul_ok nn Ha Km) as (_ & S1 & _). specialize (S1 Fa Fm). destruct S1 as [S1 _]. set (p := fmul nn f a (c_mhalf W)) in *. assert (Wp : word W p) by apply fmul_word.
      set (h := fone W - 2 ^ mw f + 1).
      assert (Wh : word W h) by (unfold h; clear; destruct f; unfold word; cbn; lia). assert (Ffh : isfin f h = true) by (unfold h; clear; destruct f; reflexivity).
      assert (Vhh : val f h = (1/2 + bpow radix2 (- mw f - 1))%R).
      { unfold h. clear. destruct f; [rewrite (@val_cst F32 _ 8388609 (-24)) by (try reflexivity; unfold word; cbn; lia)|rewrite (@val_cst F64 _ 4503599627370497 (-53)) by (try reflexivity; unfold word; cbn; lia)]; cbn; lra. }
      assert (Rh : rnd f (val f h) = val f h) by (apply rnd_id; apply fmt_val).
      assert (Np : p = infs f true \/ (isfin f p = true /\ (val f p <= - val f h)%R)).
      { unfold correct_round in S1. destruct (Rlt_bool _ _). 
        - destruct S1 as [F V]. right. split; auto. rewrite V, <- Rh, <- rnd_opp. apply rnd_mono. rewrite Vm, Vhh. lra.
        - left. rewrite S1. f_equal. apply Rlt_bool_true. rewrite Vm. pose proof (bpow_gt_0 radix2 (- mw f)). lra. }
      destruct (add_ok nn Wp Kh) as (_ & A1 & A2 & _). destruct Np as [E|[Fp Vp]].
      * left. rewrite A2; auto. rewrite E. right. reflexivity.
      * apply cr_neg with (val f p + val f (c_half W))%R; auto; [|apply A1; auto]. rewrite Vh. lra.
Qed.
Lemma acos_inv x : word W x -> isnanb f x = true \/ beyond1 f x -> isnanb f (acos1 (X := X) fm he nn x) = true.
Proof.
  intros Hx H. destruct (consts_ok HX HF) as ((_ & K4 & _) & (Kh & Km & _ & K2 & _) & (Ko & _) & _).
  assert (NA : nan (easin1 (X := X) fm nn (adom1 (X := X) he nn (fmag W x)) (sx1 (X := X) x))).
  { pose proof (asin_inv Hx H) as A. unfold asin1 in A. rewrite (ab_mag HX HF Hx) in A. rewrite isnan_spec in A; auto. apply easin_w; [|apply sgnbit_w, sx_s]. unfold adom1. destruct he; [destruct (flt _ _ _)|]; auto using mag_word; apply fdiv_word. }
  assert (WA : word W (easin1 (X := X) fm nn (adom1 (X := X) he nn (fmag W x)) (sx1 (X := X) x))).
  { apply easin_w; [|apply sgnbit_w, sx_s]. unfold adom1. destruct he; [destruct (flt _ _ _)|]; auto using mag_word; apply fdiv_word. }
  unfold acos1. cbv zeta. rewrite (ab_mag HX HF Hx), w_fw in *. destruct (flt W (c_half W) x) eqn:Lx.
  - rewrite isnan_spec by apply fmul_word. destruct H as [N|H]. { rewrite (isnan_spec Hx) in N. rewrite (@nan_flt X) in Lx by auto. discriminate. }
    assert (Nq : nan (fsqrt nn f (fma (adom1 (X := X) he nn (fmag W x)) (c_mhalf W) (c_half W)))).
    { destruct (adom_over Hx H) as [Wa Ca]. destruct Ca as [Na|[E Ca]].
      - rewrite <- (isnan_spec (fsqrt_word nn f _)). apply (@sqrt_ok nn f _ (fma_word fm nn _ _ _)). left. rewrite isnan_spec by apply fma_word. apply fma_nan; auto.
      - apply neg_sqrt with (- mw f - 1); [apply fma_word|]. apply half_over; auto. }
    apply fmul_nan; auto. { apply easin_w; [apply fsqrt_word|]. apply sgnbit_w. left. reflexivity. } right. apply easin_nan; auto using fsqrt_word. left. reflexivity.
  - rewrite isnan_spec by apply fadd_word. apply fadd_nan; auto using fadd_word. left. apply fadd_nan; auto using fsub_word. left. apply fsub_nan; auto.
Qed.
Lemma patan_w a : word W (patan1 (X := X) fm nn a). Proof. unfold patan1. cbv zeta. apply fma_word. Qed.
Lemma atan_inv x : word W x -> isnanb f x = true -> isnanb f (atan1 (X := X) fm nn x) = true.
Proof.
  intros Hx N. rewrite (isnan_spec Hx) in N. apply mag_nan in N. pose proof (mag_word HF x) as Wm. destruct (consts_ok HX HF) as (_ & _ & (_ & Ko & _) & _). rewrite w_fw in *.
  unfold atan1. rewrite (ab_mag HX HF Hx). unfold eatan1, ared1. cbv zeta. rewrite w_fw. rewrite !(@nan_flt X) by auto. cbn [orb]. rewrite (nan_feq _ _ N).
  destruct (@zero_ok f) as (W0 & _).
  rewrite isnan_spec by (apply word_lxor; [destruct f; discriminate|apply fadd_word|apply sgnbit_w, sx_s]). apply lxor_nan; auto using fadd_word, sx_s.
  apply fadd_nan; auto using fadd_word. right. apply fadd_nan; auto using fadd_word. left. apply fadd_nan; auto using patan_w. left. unfold patan1. cbv zeta. apply fma_nan; auto using fmul_word.
Qed.
End N.

(** the number nearest to r, from its significand n and its exponent e *)
Lemma rnd_unique f r n e : emin f <= e -> 2 ^ (prec f - 1) < n < 2 ^ prec f - 1 -> (Rabs (r - IZR n * bpow radix2 e) < / 2 * bpow radix2 e)%R -> rnd f r = (IZR n * bpow radix2 e)%R.
Proof.
  intros He Hn Hr. pose proof (bpow_gt_0 radix2 e) as B0. apply Rabs_def2 in Hr. destruct Hr as [H1 H2].
  assert (N1 : (IZR (2 ^ (prec f - 1) + 1) <= IZR n)%R) by (apply IZR_le; lia). assert (N2 : (IZR n <= IZR (2 ^ prec f - 2))%R) by (apply IZR_le; lia).
  rewrite plus_IZR in N1. rewrite minus_IZR in N2. change (2 ^ (prec f - 1)) with (Zpower radix2 (prec f - 1)) in N1. change (2 ^ prec f) with (Zpower radix2 (prec f)) in N2. assert (P : 0 <= prec f - 1) by (clear; destruct f; discriminate).
  rewrite IZR_Zpower in N1, N2 by lia.
  assert (M : mag_val radix2 r (mag radix2 r) = prec f + e).
  { apply mag_unique_pos. rewrite bpow_plus. replace (prec f + e - 1) with (prec f - 1 + e) by lia. rewrite bpow_plus. split; nra. }
  unfold rnd, round, F2R, scaled_mantissa, cexp. cbn [Fnum Fexp]. rewrite M.
  replace (SpecFloat.fexp (prec f) (emax f) (prec f + e)) with e by (clear -He; unfold emin, SpecFloat.fexp, SpecFloat.emin in *; destruct f; cbn [prec emax] in *; lia).
  f_equal. f_equal. apply Znearest_imp. replace (r * bpow radix2 (- e) - IZR n)%R with ((r - IZR n * bpow radix2 e) * bpow radix2 (- e))%R by (rewrite Rmult_minus_distr_r, Rmult_assoc, <- bpow_plus; replace (e + - e) with 0 by lia; cbn; ring).
  rewrite Rabs_mult, (Rabs_pos_eq (bpow _ _)) by apply bpow_ge_0. apply Rmult_lt_reg_r with (bpow radix2 e); auto. rewrite Rmult_assoc, <- bpow_plus. replace (- e + e) with 0 by lia. cbn [bpow]. rewrite Rmult_1_r.
  apply Rabs_def1; lra.
Qed.
Definition pi_w (f : fmt) : Z := match f with F32 => 0x40490fdb | F64 => 0x400921fb54442d18 end.
Definition hpi_w (f : fmt) : Z := match f with F32 => 0x3fc90fdb | F64 => 0x3ff921fb54442d18 end.
Lemma pi_n f : (exists n e, (emin f <= e /\ 2 ^ (prec f - 1) < n < 2 ^ prec f - 1) /\ val f (pi_w f) = (IZR n * bpow radix2 e)%R /\ val f (hpi_w f) = (IZR n * bpow radix2 (e - 1))%R /\ emin f <= e - 5 /\ (Rabs (PI - IZR n * bpow radix2 e) < / 2 * bpow radix2 e)%R).
Proof.
  destruct pi_fx as [A B]. destruct f.
  - exists 13176795, (-22). split; [cbn; split; [discriminate|split; reflexivity]|]. split; [apply val_cst; try reflexivity; unfold word; cbn [fw pi_w]; lia|]. split; [apply val_cst; try reflexivity; unfold word; cbn [fw hpi_w]; lia|]. split; [cbn; discriminate|].
    apply Rmult_lt_reg_l with (IZR fx); [unfold fx; apply IZR_lt; reflexivity|].
    assert (E : (IZR fx * bpow radix2 (-22) = IZR (2 ^ 108))%R). { unfold fx. change (2 ^ 130) with (2 ^ 108 * 2 ^ 22). rewrite mult_IZR, Rmult_assoc. change (bpow radix2 (-22)) with (/ IZR (2 ^ 22))%R. rewrite Rinv_r by (apply IZR_neq; discriminate). ring. }
    rewrite <- (Rabs_pos_eq (IZR fx)) at 1 by (unfold fx; apply IZR_le; discriminate). rewrite <- Rabs_mult.
    replace (IZR fx * (PI - 13176795 * bpow radix2 (-22)))%R with (IZR fx * PI - 13176795 * (IZR fx * bpow radix2 (-22)))%R by ring. replace (IZR fx * (/ 2 * bpow radix2 (-22)))%R with (/ 2 * (IZR fx * bpow radix2 (-22)))%R by ring. rewrite E.
    set (P := (IZR fx * PI)%R) in *. clearbody P. clear E. unfold pi_lo, pi_hi in *. cbn -[IZR] in *. apply Rabs_def1; lra.
  - exists 7074237752028440, (-51). split; [cbn; split; [discriminate|split; reflexivity]|]. split; [apply val_cst; try reflexivity; unfold word; cbn [fw pi_w]; lia|]. split; [apply val_cst; try reflexivity; unfold word; cbn [fw hpi_w]; lia|]. split; [cbn; discriminate|].
    apply Rmult_lt_reg_l with (IZR fx); [unfold fx; apply IZR_lt; reflexivity|].
    assert (E : (IZR fx * bpow radix2 (-51) = IZR (2 ^ 79))%R). { unfold fx. change (2 ^ 130) with (2 ^ 79 * 2 ^ 51). rewrite mult_IZR, Rmult_assoc. change (bpow radix2 (-51)) with (/ IZR (2 ^ 51))%R. rewrite Rinv_r by (apply IZR_neq; discriminate). ring. }
    rewrite <- (Rabs_pos_eq (IZR fx)) at 1 by (unfold fx; apply IZR_le; discriminate). rewrite <- Rabs_mult.
    replace (IZR fx * (PI - 7074237752028440 * bpow radix2 (-51)))%R with (IZR fx * PI - 7074237752028440 * (IZR fx * bpow radix2 (-51)))%R by ring. replace (IZR fx * (/ 2 * bpow radix2 (-51)))%R with (/ 2 * (IZR fx * bpow radix2 (-51)))%R by ring. rewrite E.
    set (P := (IZR fx * PI)%R) in *. clearbody P. clear E. unfold pi_lo, pi_hi in *. cbn -[IZR] in *. apply Rabs_def1; lra.
Qed.
Lemma pi_near f : nearest f PI (pi_w f) /\ nearest f (PI / 2) (hpi_w f).
Proof.
  destruct (pi_n f) as (n & e & (He & Hn) & V1 & V2 & He' & Hr). split; (split; [destruct f; reflexivity|]).
  - rewrite V1. symmetry. now apply rnd_unique.
  - rewrite V2. symmetry. apply rnd_unique; [lia|auto|]. assert (E : (bpow radix2 e = 2 * bpow radix2 (e - 1))%R) by (replace e with (1 + (e - 1)) at 1 by lia; apply bpow_plus). rewrite E in Hr.
    apply Rabs_def2 in Hr. apply Rabs_def1; lra.
Qed.
Lemma near_flip f r y : word (fw f) y -> nearest f r y -> nearest f (- r) (flip f y).
Proof. intros Hy [F V]. destruct (flip_ok (f := f) Hy) as (_ & F' & V' & _). split; [congruence|]. rewrite V', V. symmetry. apply rnd_opp. Qed.

Lemma float_each (P : xty -> Prop) (X : xty) : xty_ok X -> is_int (xT X) = false ->
  (forall c1 c2 c3 c4 c5 sz vs n, In (sz, vs) [(4, 16); (4, 32); (8, 16); (8, 32)]%nat -> P {| xc := {| sse3 := c1; ssse3 := c2; sse41 := c3; avx := c4; avx2 := c5 |}; xT := {| esz := sz; ek := KFloat |}; xvs := vs; xN := n |}) -> P X.
Proof.
  intros (_ & HT & _ & HV) HF H. destruct X as [[c1 c2 c3 c4 c5] [sz k] vs n]. cbn in *. destruct k; [discriminate|]. apply H. unfold ety_ok in HT. cbn [ek esz] in HT. cbn [In]. destruct HT as [-> | ->], HV as [-> | [-> _]]; auto.
Qed.
Ltac conc := let c1 := fresh in let c2 := fresh in let c3 := fresh in let c4 := fresh in let c5 := fresh in let H := fresh in
  intros c1 c2 c3 c4 c5 ? ? ? [H|[H|[H|[H|[]]]]]; injection H as <- <-; destruct c3, c5.
(** evaluation at constants *)
Lemma sin_0 X fm he nn ls lc lt : xty_ok X -> is_int (xT X) = false -> let f := xf X in
  sin1 (X := X) fm he nn ls 0 = 0 /\ cos1 (X := X) fm he nn lc 0 = fone (fw f) /\ tan1 (X := X) fm he nn lt 0 = 0 /\
  sin1 (X := X) fm he nn ls (flip f 0) = flip f 0 /\ cos1 (X := X) fm he nn lc (flip f 0) = fone (fw f) /\ tan1 (X := X) fm he nn lt (flip f 0) = flip f 0.
Proof. intros HX HF. pattern X. apply (float_each _ HX HF). clear. conc; destruct nn, fm, he; vm_compute; repeat split; reflexivity. Qed.
Lemma asin_0 X fm he nn : xty_ok X -> is_int (xT X) = false -> let f := xf X in
  asin1 (X := X) fm he nn 0 = 0 /\ acos1 (X := X) fm he nn 0 = hpi_w f /\ acos1 (X := X) fm he nn (flip f 0) = hpi_w f /\ atan1 (X := X) fm nn 0 = 0.
Proof. intros HX HF. pattern X. apply (float_each _ HX HF). clear. conc; destruct nn, fm, he; vm_compute; repeat split; reflexivity. Qed.
Lemma asin_1 X fm he nn : xty_ok X -> is_int (xT X) = false -> let f := xf X in
  asin1 (X := X) fm he nn (fone (fw f)) = hpi_w f /\ acos1 (X := X) fm he nn (fone (fw f)) = 0 /\ acos1 (X := X) fm he nn (flip f (fone (fw f))) = pi_w f /\ atan1 (X := X) fm nn (finf (fw f)) = hpi_w f.
Proof. intros HX HF. pattern X. apply (float_each _ HX HF). clear. conc; destruct nn, fm, he; vm_compute; repeat split; reflexivity. Qed.

Lemma x_each X (K : vec -> vec) (g : Z -> Z) a (P : Z -> Z -> Prop) : xty_ok X -> is_int (xT X) = false -> (forall k a v, (k < ext X)%nat -> L X k a v -> L X k (K a) (g v)) -> shaped X a ->
  (forall x, word (fw (xf X)) x -> P x (g x)) -> each1 X a (vz1 X (fun v => Ok (K v)) a) P.
Proof. intros HX HF HK Ha H. rewrite <- (xw_fw HX HF) in H. apply (@k_each X HX K g); auto. Qed.
Section E.
Variables (nn : nans) (X : xty) (fm he : bool) (lm : Z -> Z) (a : list vec) (P : Z -> Z -> Prop).
Hypotheses (HX : xty_ok X) (HF : is_int (xT X) = false) (Hl : libm_ok X lm) (Ha : shaped X a).
Local Notation W := (fw (xf X)).
Lemma e_sin : (forall x, word W x -> P x (sin1 (X := X) fm he nn lm x)) -> each1 X a (x_sin X fm he nn lm a) P.
Proof. intros H. apply (@x_each X (fun v => fst (k_sincos X fm he nn lm lm v)) (sin1 (X := X) fm he nn lm)); auto. intros k v x Hk Hv. exact (proj1 (l_sincos HX HF fm he nn lm lm Hl Hl Hv)). Qed.
Lemma e_cos : (forall x, word W x -> P x (cos1 (X := X) fm he nn lm x)) -> each1 X a (x_cos X fm he nn lm a) P.
Proof. intros H. apply (@x_each X (fun v => snd (k_sincos X fm he nn lm lm v)) (cos1 (X := X) fm he nn lm)); auto. intros k v x Hk Hv. exact (proj2 (l_sincos HX HF fm he nn lm lm Hl Hl Hv)). Qed.
Lemma e_tan : (forall x, word W x -> P x (tan1 (X := X) fm he nn lm x)) -> each1 X a (x_tan X fm he nn lm a) P.
Proof. intros H. apply (@x_each X (k_tan X fm he nn lm) (tan1 (X := X) fm he nn lm)); auto. intros k v x Hk Hv. exact (l_tan HX HF fm he nn lm Hl Hv). Qed.
Lemma e_asin : (forall x, word W x -> P x (asin1 (X := X) fm he nn x)) -> each1 X a (x_asin X fm he nn a) P.
Proof. intros H. apply (@x_each X (k_asin X fm he nn) (asin1 (X := X) fm he nn)); auto. intros k v x Hk Hv. now apply l_asin. Qed.
Lemma e_acos : (forall x, word W x -> P x (acos1 (X := X) fm he nn x)) -> each1 X a (x_acos X fm he nn a) P.
Proof. intros H. apply (@x_each X (k_acos X fm he nn) (acos1 (X := X) fm he nn)); auto. intros k v x Hk Hv. now apply l_acos. Qed.
Lemma e_atan : (forall x, word W x -> P x (atan1 (X := X) fm nn x)) -> each1 X a (x_atan X fm nn a) P.
Proof. intros H. apply (@x_each X (k_atan X fm nn) (atan1 (X := X) fm nn)); auto. intros k v x Hk Hv. now apply l_atan. Qed.
End E.

(** zeros: sin, tan, asin and atan return their argument, sign included; cos is exactly 1, acos is the number nearest to pi/2 *)
Theorem C56_zero : forall nn X fm he lm a, xty_ok X -> is_int (xT X) = false -> libm_ok X lm -> shaped X a -> let f := xf X in
  each1 X a (x_sin X fm he nn lm a) (fun x y => iszero f x -> y = x) /\
  each1 X a (x_cos X fm he nn lm a) (fun x y => iszero f x -> isfin f y = true /\ val f y = 1%R) /\
  each1 X a (x_tan X fm he nn lm a) (fun x y => iszero f x -> y = x) /\
  each1 X a (x_asin X fm he nn a) (fun x y => iszero f x -> y = x) /\
  each1 X a (x_acos X fm he nn a) (fun x y => iszero f x -> nearest f (PI / 2) y) /\
  each1 X a (x_atan X fm nn a) (fun x y => iszero f x -> y = x).
Proof.
  intros nn X fm he lm a HX HF Hl Ha f.
  assert (Z0 : forall x, iszero f x -> x = 0 \/ x = flip f 0) by (intros x [-> | ->]; clear; destruct f; cbn; auto).
  destruct (@fone_ok f) as (_ & F1 & V1). destruct (pi_near f) as [_ PN]. assert (W0 : word (fw f) 0) by apply zero_ok.
  destruct (sin_0 (X := X) fm he nn lm lm lm HX HF) as (A1 & A2 & A3 & A4 & A5 & A6). destruct (asin_0 fm he nn HX HF) as (B1 & B2 & B3 & B4).
  pose proof (asin_flip HX HF fm he nn (x := 0) W0) as B5. pose proof (atan_flip HX HF fm nn (x := 0) W0) as B6. rewrite B1 in B5. rewrite B4 in B6. fold f in A1, A2, A3, A4, A5, A6, B1, B2, B3, B4, B5, B6.
  repeat split; [apply e_sin|apply e_cos|apply e_tan|apply e_asin|apply e_acos|apply e_atan]; auto; intros x Hx Hz; apply Z0 in Hz; destruct Hz as [-> | ->];
    rewrite ?A1, ?A2, ?A3, ?A4, ?A5, ?A6, ?B1, ?B2, ?B3, ?B4, ?B5, ?B6; auto.
Qed.
Print Assumptions C56_zero.
(** ends: asin(+-1) is nearest to +-pi/2, acos(1) is +0, acos(-1) is nearest to pi, atan(+-inf) is nearest to +-pi/2 *)
Theorem C56_ends : forall nn X fm he a, xty_ok X -> is_int (xT X) = false -> shaped X a -> let f := xf X in
  each1 X a (x_asin X fm he nn a) (fun x y => isfin f x = true -> (val f x = 1%R -> nearest f (PI / 2) y) /\ (val f x = (-1)%R -> nearest f (- (PI / 2)) y)) /\
  each1 X a (x_acos X fm he nn a) (fun x y => isfin f x = true -> (val f x = 1%R -> y = szero f false) /\ (val f x = (-1)%R -> nearest f PI y)) /\
  each1 X a (x_atan X fm nn a) (fun x y => (x = infs f false -> nearest f (PI / 2) y) /\ (x = infs f true -> nearest f (- (PI / 2)) y)).
Proof.
  intros nn X fm he a HX HF Ha f. destruct (@fone_ok f) as (W1 & F1 & V1). destruct (pi_near f) as [PN PH]. assert (Wh : word (fw f) (hpi_w f)) by (clear; destruct f; unfold word; cbn [fw hpi_w]; lia).
  assert (Wi : word (fw f) (finf (fw f))) by (clear; destruct f; unfold word; cbn; lia).
  destruct (asin_1 fm he nn HX HF) as (B1 & B2 & B3 & B4). fold f in B1, B2, B3, B4.
  pose proof (asin_flip HX HF fm he nn W1) as B5. pose proof (atan_flip HX HF fm nn Wi) as B6. fold f in B5, B6. rewrite B1 in B5. rewrite B4 in B6.
  assert (P1 : forall x, word (fw f) x -> isfin f x = true -> val f x = 1%R -> x = fone (fw f)).
  { intros x Hx Fx Vx. apply (bits_inj Hx W1 Fx F1); [congruence|]. pose proof (sign_val Hx Fx) as S. pose proof (sign_val W1 F1) as S1. destruct (fsign _ x), (fsign _ (fone (fw f))); auto; lra. }
  assert (M1 : forall x, word (fw f) x -> isfin f x = true -> val f x = (-1)%R -> x = flip f (fone (fw f))).
  { intros x Hx Fx Vx. destruct (flip_ok (f := f) W1) as (W2 & F2 & V2 & _). rewrite F1 in F2. rewrite V1 in V2. apply (bits_inj Hx W2 Fx F2); [rewrite Vx, V2; lra|]. pose proof (sign_val Hx Fx) as S. pose proof (sign_val W2 F2) as S1. destruct (fsign _ x), (fsign _ (flip f (fone (fw f)))); auto; lra. }
  split; [|split].
  - apply e_asin; auto. intros x Hx Fx. split; intros V. { rewrite (P1 x Hx Fx V), B1. exact PH. } rewrite (M1 x Hx Fx V), B5. now apply near_flip.
  - apply e_acos; auto. intros x Hx Fx. split; intros V. { rewrite (P1 x Hx Fx V), B2. clear. destruct f; reflexivity. } rewrite (M1 x Hx Fx V), B3. exact PN.
  - apply e_atan; auto. intros x Hx. split; intros ->. { replace (infs f false) with (finf (fw f)) by (clear; destruct f; reflexivity). rewrite B4. exact PH. }
    replace (infs f true) with (flip f (finf (fw f))) by (clear; destruct f; reflexivity). rewrite B6. now apply near_flip.
Qed.
Print Assumptions C56_ends.
(** a NaN gives a NaN *)
Theorem C56_nan : forall nn X fm he lm a, xty_ok X -> is_int (xT X) = false -> libm_ok X lm -> shaped X a -> let f := xf X in
  let nan_to_nan := fun x y => isnanb f x = true -> isnanb f y = true in
  each1 X a (x_sin X fm he nn lm a) nan_to_nan /\ each1 X a (x_cos X fm he nn lm a) nan_to_nan /\ each1 X a (x_tan X fm he nn lm a) nan_to_nan /\
  each1 X a (x_asin X fm he nn a) nan_to_nan /\ each1 X a (x_acos X fm he nn a) nan_to_nan /\ each1 X a (x_atan X fm nn a) nan_to_nan.
Proof.
  intros nn X fm he lm a HX HF Hl Ha f n. repeat split; [apply e_sin|apply e_cos|apply e_tan|apply e_asin|apply e_acos|apply e_atan]; auto; intros x Hx N.
  - apply (sin_nan HX HF); auto.
  - apply (cos_nan HX HF); auto.
  - apply (tan_nan HX HF); auto.
  - apply (asin_inv HX HF); auto.
  - apply (acos_inv HX HF); auto.
  - apply (atan_inv HX HF); auto.
Qed.
Print Assumptions C56_nan.
(** outside the domain: asin and acos of any |x| > 1, infinities included; with DPM_HANDLE_ERRORS, sin, cos and tan of infinities *)
Theorem C56_invalid : forall nn X fm he lm a, xty_ok X -> is_int (xT X) = false -> libm_ok X lm -> shaped X a -> let f := xf X in
  each1 X a (x_asin X fm he nn a) (fun x y => beyond1 f x -> isnanb f y = true) /\ each1 X a (x_acos X fm he nn a) (fun x y => beyond1 f x -> isnanb f y = true) /\
  (he = true -> each1 X a (x_sin X fm he nn lm a) (fun x y => isinf f x -> isnanb f y = true) /\ each1 X a (x_cos X fm he nn lm a) (fun x y => isinf f x -> isnanb f y = true) /\
    each1 X a (x_tan X fm he nn lm a) (fun x y => isinf f x -> isnanb f y = true)).
Proof.
  intros nn X fm he lm a HX HF Hl Ha f. split; [|split; [|intros Hh; split; [|split]]]; [apply e_asin|apply e_acos|apply e_sin|apply e_cos|apply e_tan]; auto; intros x Hx N.
  - apply (asin_inv HX HF); auto.
  - apply (acos_inv HX HF); auto.
  - apply (sin_nan HX HF); auto.
  - apply (cos_nan HX HF); auto.
  - apply (tan_nan HX HF); auto.
Qed.
Print Assumptions C56_invalid.
(** acos of 1, -1, -0 and asin of 1 + 2^-23, a NaN, infinity, -1 *)
Example C56_case : xty_ok (f4 haswell) /\ is_int (xT (f4 haswell)) = false /\ shaped (f4 haswell) [[0x3f800000; 0xbf800000; 0x80000000; 0x3f800001]] /\ libm_ok (f4 haswell) (fun x => x) /\
  iszero F32 0x80000000 /\ beyond1 F32 0x7f800000 /\ isnanb F32 0x7fc00000 = true /\
  x_atan (f4 haswell) true nans0 [[0x7f800000; 0xff800000; 0x80000000; 0]] = Ok [[0x3fc90fdb; 0xbfc90fdb; 0x80000000; 0]] /\
  (exists n, x_acos (f4 haswell) true false nans0 [[0x3f800000; 0xbf800000; 0x80000000; 0x3f000000]] = Ok [[0; 0x40490fdb; 0x3fc90fdb; n]]).
Proof.
  split; [xok|]. split; [reflexivity|]. split; [shp|]. split; [intros v H; exact H|]. split; [right; reflexivity|]. split; [left; left; reflexivity|]. split; [reflexivity|].
  split; [vm_compute; reflexivity|]. eexists. vm_compute. reflexivity.
Qed.
