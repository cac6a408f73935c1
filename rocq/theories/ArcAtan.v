(** The error of one operation, and of atan. *)
From Coq Require Import ZifyBool ZifyNat Reals Ratan Lra.
From Flocq Require Import Core IEEE754.BinarySingleNaN IEEE754.Binary.
From Verif Require Import Base Cxx Spec X86Vec X86 X86Lemmas X86Proofs Fp FpLemmas FpOps FMath FMathProofs FLane FFields FManip FManipLanes PropManip Round RoundProofs RoundSem FArith PropArith FCvt PropHypot PropIeee PropLog FErr IvPoly TrigTab Trig TrigProofs PropTrig SinPoly SinEval SinRed SinAcc PropSin PropTrigSpec ArcSer RatPoly ArcKern ArcNum.
Set Implicit Arguments.
Open Scope Z_scope.

Lemma eta_u f : (eta f <= / 1024 * bpow radix2 (- prec f))%R.
Proof. unfold eta. change (/ 1024)%R with (bpow radix2 (-10)). rewrite <- bpow_plus. apply bpow_le. destruct f; discriminate. Qed.
(** one correctly rounded operation on numbers *)
Section O.
Context (nn : nans) (f : fmt).
Local Notation W := (fw f).
Local Notation u := (bpow radix2 (- prec f)).
Definition opr (s : R) (y : Z) : Prop := word W y /\ isfin f y = true /\ (Rabs (val f y - s) <= u * Rabs s + eta f)%R.
Lemma o_add a b : word W a -> word W b -> isfin f a = true -> isfin f b = true -> (Rabs (val f a + val f b) <= 16)%R -> opr (val f a + val f b) (fadd nn f a b).
Proof. intros Wa Wb Fa Fb B. split; [apply fadd_word|]. destruct (add_ok nn Wa Wb) as (_ & C & _). specialize (C Fa Fb). exact (@cr_fin _ _ _ (proj1 C) B). Qed.
Lemma o_sub a b : word W a -> word W b -> isfin f a = true -> isfin f b = true -> (Rabs (val f a - val f b) <= 16)%R -> opr (val f a - val f b) (fsub nn f a b).
Proof. intros Wa Wb Fa Fb B. split; [apply fsub_word|]. destruct (sub_ok nn Wa Wb) as (_ & C & _). specialize (C Fa Fb). exact (@cr_fin _ _ _ (proj1 C) B). Qed.
Lemma o_mul a b : word W a -> word W b -> isfin f a = true -> isfin f b = true -> (Rabs (val f a * val f b) <= 16)%R -> opr (val f a * val f b) (fmul nn f a b).
Proof. intros Wa Wb Fa Fb B. split; [apply fmul_word|]. destruct (mul_ok nn Wa Wb) as (_ & C & _). specialize (C Fa Fb). exact (@cr_fin _ _ _ (proj1 C) B). Qed.
Lemma o_div a b : word W a -> word W b -> isfin f a = true -> isfin f b = true -> val f b <> 0%R -> (Rabs (val f a / val f b) <= 16)%R -> opr (val f a / val f b) (fdiv nn f a b).
Proof.
  intros Wa Wb Fa Fb N B. split; [apply fdiv_word|]. destruct (div_ok nn Wa Wb) as (_ & C & _). assert (NZ : ~ iszero f b) by (intros [-> | ->]; apply N; destruct f; reflexivity). specialize (C Fa Fb NZ). exact (@cr_fin _ _ _ (proj1 C) B).
Qed.
Lemma o_sqrt a : word W a -> isfin f a = true -> (0 <= val f a <= 100)%R -> opr (sqrt (val f a)) (fsqrt nn f a).
Proof.
  intros Wa Fa B. split; [apply fsqrt_word|]. destruct (@sqrt_ok nn f a Wa) as (C & _). destruct (C Fa ltac:(lra)) as [F V]. split; auto. rewrite V. apply rnd_rel.
Qed.
Lemma opb s y e m : (Rabs (val f y - s) <= u * Rabs s + e)%R -> (e <= / 1024 * u)%R -> (Rabs s <= m)%R -> (Rabs (val f y - s) <= (m + / 1024) * u)%R.
Proof. intros H E B. assert (u * Rabs s <= u * m)%R by (apply Rmult_le_compat_l; [apply bpow_ge_0|auto]). lra. Qed.
Lemma ub a b : (a <= b)%R -> (u * a <= u * b)%R. Proof. intros H. apply Rmult_le_compat_l; [apply bpow_ge_0|auto]. Qed.
(** exact sums *)
Lemma x_add a b : word W a -> word W b -> isfin f a = true -> isfin f b = true -> (Rabs (val f a + val f b) <= 16)%R -> rnd f (val f a + val f b) = (val f a + val f b)%R -> isfin f (fadd nn f a b) = true /\ val f (fadd nn f a b) = (val f a + val f b)%R.
Proof.
  intros Wa Wb Fa Fb B E. destruct (add_ok nn Wa Wb) as (_ & C & _). specialize (C Fa Fb). destruct (@cr_fin _ _ _ (proj1 C) B) as [F _]. destruct C as [C _]. unfold correct_round in C. split; auto.
  rewrite Rlt_bool_true in C; [destruct C as [_ V]; congruence|]. rewrite E. eapply Rle_lt_trans; [exact B|]. apply Rlt_le_trans with 64%R; [lra|]. change 64%R with (bpow radix2 6). apply bpow_le. clear. destruct f; discriminate.
Qed.
Lemma x_sub a b : word W a -> word W b -> isfin f a = true -> isfin f b = true -> (Rabs (val f a - val f b) <= 16)%R -> rnd f (val f a - val f b) = (val f a - val f b)%R -> isfin f (fsub nn f a b) = true /\ val f (fsub nn f a b) = (val f a - val f b)%R.
Proof.
  intros Wa Wb Fa Fb B E. destruct (sub_ok nn Wa Wb) as (_ & C & _). specialize (C Fa Fb). destruct (@cr_fin _ _ _ (proj1 C) B) as [F _]. destruct C as [C _]. unfold correct_round in C. split; auto.
  rewrite Rlt_bool_true in C; [destruct C as [_ V]; congruence|]. rewrite E. eapply Rle_lt_trans; [exact B|]. apply Rlt_le_trans with 64%R; [lra|]. change 64%R with (bpow radix2 6). apply bpow_le. clear. destruct f; discriminate.
Qed.
Lemma fmt_0 : val f 0 = 0%R. Proof. destruct f; reflexivity. Qed.
Lemma add_0r a : word W a -> isfin f a = true -> (Rabs (val f a) <= 16)%R -> word W (fadd nn f a 0) /\ isfin f (fadd nn f a 0) = true /\ val f (fadd nn f a 0) = val f a.
Proof.
  intros Wa Fa B. destruct (@zero_ok f) as (W0 & F0 & _). split; [apply fadd_word|]. destruct (@x_add a 0 Wa W0 Fa F0) as [F V]; rewrite fmt_0, Rplus_0_r in *; auto. apply rnd_id, fmt_val.
Qed.
Lemma add_0l a : word W a -> isfin f a = true -> (Rabs (val f a) <= 16)%R -> isfin f (fadd nn f 0 a) = true /\ val f (fadd nn f 0 a) = val f a.
Proof.
  intros Wa Fa B. destruct (@zero_ok f) as (W0 & F0 & _). destruct (@x_add 0 a W0 Wa F0 Fa) as [F V]; rewrite fmt_0, Rplus_0_l in *; auto. apply rnd_id, fmt_val.
Qed.
Lemma tri a b c e1 e2 : (Rabs (a - b) <= e1)%R -> (Rabs (b - c) <= e2)%R -> (Rabs (a - c) <= e1 + e2)%R.
Proof. intros A B. replace (a - c)%R with ((a - b) + (b - c))%R by ring. eapply Rle_trans; [apply Rabs_triang|]. lra. Qed.
Lemma near_abs a b e m : (Rabs (a - b) <= e)%R -> (Rabs b <= m)%R -> (Rabs a <= m + e)%R.
Proof. intros A B. replace a with (b + (a - b))%R by ring. eapply Rle_trans; [apply Rabs_triang|]. lra. Qed.
(** the constants *)
Lemma c_off2_ok : word W (c_asin_off2 W) /\ isfin f (c_asin_off2 W) = true /\ (0 <= val f (c_asin_off2 W) <= / 2 * u)%R.
Proof.
  destruct f.
  - split; [unfold word; cbn; lia|]. split; [reflexivity|]. rewrite (@val_cst F32 _ 9253170 (-78)) by (try reflexivity; unfold word; cbn; lia). cbn. lra.
  - split; [unfold word; cbn; lia|]. split; [reflexivity|]. rewrite (@val_cst F64 _ 4967757600021511 (-107)) by (try reflexivity; unfold word; cbn; lia). cbn. lra.
Qed.
Lemma c_pio4_ok : word W (c_pio4 W) /\ isfin f (c_pio4 W) = true /\ (Rabs (val f (c_pio4 W) - PI / 4) <= / 2 * u)%R.
Proof. destruct (pio4_ok f) as (_ & E & F & Wd). split; auto. split; auto. eapply Rle_trans; [exact E|]. destruct f; cbn; lra. Qed.
Lemma c_pio2_ok : word W (c_pio2 W) /\ isfin f (c_pio2 W) = true /\ (Rabs (val f (c_pio2 W) - PI / 2) <= u)%R.
Proof.
  destruct c_pio4_ok as (_ & _ & E). split; [destruct f; unfold word; cbn; lia|]. split; [destruct f; reflexivity|].
  assert (V : (val f (c_pio2 W) = 2 * val f (c_pio4 W))%R).
  { clear. destruct f.
    - rewrite (@val_cst F32 (c_pio2 _) 13176795 (-23)), (@val_cst F32 (c_pio4 (fw F32)) 13176795 (-24)) by (try reflexivity; unfold word; cbn; lia). cbn. lra.
    - rewrite (@val_cst F64 (c_pio2 _) 7074237752028440 (-52)), (@val_cst F64 (c_pio4 (fw F64)) 7074237752028440 (-53)) by (try reflexivity; unfold word; cbn; lia). cbn. lra. }
  rewrite V. apply Rabs_le_inv in E. apply Rabs_le. lra.
Qed.
Lemma c_tan3_ok : word W (c_tan3pio8 W) /\ isfin f (c_tan3pio8 W) = true /\ (2414 / 1000 <= val f (c_tan3pio8 W) <= 24143 / 10000)%R.
Proof.
  destruct f.
  - split; [unfold word; cbn; lia|]. split; [reflexivity|]. rewrite (@val_cst F32 _ 10125946 (-22)) by (try reflexivity; unfold word; cbn; lia). cbn. lra.
  - split; [unfold word; cbn; lia|]. split; [reflexivity|]. rewrite (@val_cst F64 _ 5436325649948134 (-51)) by (try reflexivity; unfold word; cbn; lia). cbn. lra.
Qed.
Lemma c_p66_ok : word W (c_p66 W) /\ isfin f (c_p66 W) = true /\ (6599 / 10000 <= val f (c_p66 W) <= 6601 / 10000)%R.
Proof.
  destruct f.
  - split; [unfold word; cbn; lia|]. split; [reflexivity|]. rewrite (@val_cst F32 _ 11072963 (-24)) by (try reflexivity; unfold word; cbn; lia). cbn. lra.
  - split; [unfold word; cbn; lia|]. split; [reflexivity|]. rewrite (@val_cst F64 _ 5944751508129055 (-53)) by (try reflexivity; unfold word; cbn; lia). cbn. lra.
Qed.
Lemma mone_ok : let m := 2 ^ (W - 1) + fone W in word W m /\ isfin f m = true /\ val f m = (-1)%R.
Proof.
  cbv zeta. destruct f.
  - split; [unfold word; cbn; lia|]. split; [reflexivity|]. rewrite (@val_cst F32 _ (-8388608) (-23)) by (try reflexivity; unfold word; cbn; lia). cbn. lra.
  - split; [unfold word; cbn; lia|]. split; [reflexivity|]. rewrite (@val_cst F64 _ (-4503599627370496) (-52)) by (try reflexivity; unfold word; cbn; lia). cbn. lra.
Qed.
End O.
Arguments opb {f s y e m}.
Arguments ub f {a b}.
Arguments tri {a b c e1 e2}.
Arguments near_abs {a b e m}.
(** atan is 1-Lipschitz, and where it lies *)
Lemma atan_lip a b : (Rabs (atan a - atan b) <= Rabs (a - b))%R.
Proof.
  destruct (Req_dec a b) as [-> | N]. { rewrite !Rminus_diag_eq by reflexivity. lra. }
  assert (G : forall a b, (a < b)%R -> (0 <= atan b - atan a <= b - a)%R).
  { clear. intros a b H. destruct (MVT_cor2 atan (fun x => / (1 + x ^ 2))%R a b H) as (c & E & _). { intros c _. apply derivable_pt_lim_atan. }
    rewrite E. assert (C : (0 < / (1 + c ^ 2) <= 1)%R). { assert (0 <= c ^ 2)%R by (cbn; nra). split; [apply Rinv_0_lt_compat; lra|]. rewrite <- Rinv_1. apply Rinv_le_contravar; lra. } nra. }
  destruct (Rtotal_order a b) as [H | [H | H]]; [|lra|]; specialize (G _ _ H).
  - rewrite (Rabs_left1 (a - b)), (Rabs_left1 (atan a - atan b)); lra.
  - rewrite !Rabs_pos_eq; lra.
Qed.
Lemma atan_le a b : (a <= b)%R -> (atan a <= atan b)%R.
Proof. intros [H | ->]; [left; now apply atan_increasing|lra]. Qed.
Lemma atan_low a : (0 <= a <= 661 / 1000)%R -> (/ 2 * a <= atan a)%R.
Proof.
  intros B. pose proof (atan_taylor 1 a (proj1 B)) as T. cbn [hornerR atc fold_right] in T. replace (a * (1 / INR 1 + a * a * 0))%R with a in T by (cbn; field). cbn [pow] in T. rewrite Rmult_1_r in T.
  apply Rabs_le_inv in T. assert (a * (a * a) <= a * (/ 2))%R by (apply Rmult_le_compat_l; nra). lra.
Qed.
Lemma atan_big a : (0 < a)%R -> atan (-1 / a) = (atan a - PI / 2)%R.
Proof. intros H. replace (-1 / a)%R with (- / a)%R by (unfold Rdiv; ring). rewrite atan_opp, (Ratan.atan_inv _ H). ring. Qed.
Lemma atan_mid a : (0 < a)%R -> atan ((a - 1) / (a + 1)) = (atan a - PI / 4)%R.
Proof.
  intros H. assert (B := atan_bound a). assert (P0 : (0 < atan a)%R) by (rewrite <- atan_0; now apply atan_increasing).
  rewrite <- atan_1. symmetry. replace ((a - 1) / (a + 1))%R with (atan_sub a 1) by (unfold atan_sub; f_equal; ring).
  enough (E : atan a = (atan 1 + atan (atan_sub a 1))%R) by (rewrite E; ring). apply atan_sub_correct; rewrite ?Rmult_1_r; try lra. { rewrite atan_1. lra. } pose proof (atan_bound (atan_sub a 1)). lra.
Qed.
(** below 2^-76 (float), 2^-539 (double) the square underflows to zero *)
Definition tiny_lim (f : fmt) : Z := match f with F32 => -76 | F64 => -539 end.
Lemma patan_zero z fm nn (X : xty) : xty_ok X -> is_int (xT X) = false -> z = 0 \/ z = 2 ^ (fw (xf X) - 1) ->
  let w := fmul nn (xf X) z (fdiv nn (xf X) (polevl1 (X := X) fm nn z (atan_p (fw (xf X)))) (polevl1 (X := X) fm nn z (atan_q (fw (xf X))))) in w = 0 \/ w = 2 ^ (fw (xf X) - 1).
Proof.
  intros HX HF. pattern X. apply (float_each _ HX HF). clear. conc; destruct nn, fm; intros [-> | ->]; vm_compute; auto.
Qed.
Section A.
Context {X : xty} (HX : xty_ok X) (HF : is_int (xT X) = false) (fm : bool) (nn : nans).
Local Notation f := (xf X).
Local Notation W := (fw f).
Local Notation u := (bpow radix2 (- prec (xf X))).
Lemma at_ma_ge : (/ 1000 * 6601 / 10 <= IZR at_ma * UU)%R.
Proof.
  pose proof UU_pos as UP. assert (Q : (6601 * IZR (2 ^ 140) <= IZR at_ma * 10000)%R) by (rewrite <- !mult_IZR; apply IZR_le; vm_compute; discriminate). apply Rmult_le_compat_r with (r := UU) in Q; [|lra]. rewrite (Rmult_assoc 6601), UU_inv in Q. lra.
Qed.
Lemma patan_err b : word W b -> isfin f b = true -> (Rabs (val f b) <= 6601 / 10000)%R -> word W (patan1 (X := X) fm nn b) /\ isfin f (patan1 (X := X) fm nn b) = true /\ (Rabs (val f (patan1 (X := X) fm nn b) - atan (val f b)) <= 7 * u * Rabs (val f b) + 3 * eta f)%R.
Proof. intros Wb Fb Bb. split; [apply patan_w; auto|]. unfold patan1. rewrite (xw_fw HX HF). apply (at_kern HF fm nn Wb Fb). pose proof at_ma_ge. lra. Qed.
Lemma cr_val s y : correct_round f s y -> (Rabs s <= 16)%R -> isfin f y = true /\ val f y = rnd f s.
Proof.
  intros C B. destruct (@cr_fin _ _ _ C B) as [F _]. split; auto. unfold correct_round in C. pose proof (rnd_rel f s) as R. pose proof (eta_small f) as E. pose proof (pr_small f) as P. fold (eta f) in R.
  rewrite Rlt_bool_true in C; [apply C|]. replace (rnd f s) with (s + (rnd f s - s))%R by ring. eapply Rle_lt_trans; [apply Rabs_triang|]. pose proof (Rabs_pos s). assert (u * Rabs s <= 1 * Rabs s)%R by (apply Rmult_le_compat_r; lra).
  apply Rlt_le_trans with 64%R; [lra|]. change 64%R with (bpow radix2 6). apply bpow_le. clear. destruct f; discriminate.
Qed.
Lemma is_zero y : word W y -> isfin f y = true -> val f y = 0%R -> y = 0 \/ y = 2 ^ (W - 1).
Proof. intros Wy Fy Vy. pose proof (@zero_of f y _ Wy Fy Vy eq_refl) as Z. rewrite Z. unfold szero, sbit. destruct (fsign W y); auto. Qed.
Lemma zero_vals y : y = 0 \/ y = 2 ^ (W - 1) -> word W y /\ isfin f y = true /\ val f y = 0%R.
Proof. clear. destruct f; intros [-> | ->]; (split; [unfold word; cbn; lia|split; reflexivity]). Qed.
Lemma patan_tiny b : word W b -> isfin f b = true -> (Rabs (val f b) <= bpow radix2 (tiny_lim f))%R -> val f (patan1 (X := X) fm nn b) = val f b.
Proof.
  intros Wb Fb Bb. unfold patan1. cbv zeta. rewrite (xw_fw HX HF). pose proof (eta_small f) as E0.
  assert (LL : (bpow radix2 (tiny_lim f) <= 1)%R) by (change 1%R with (bpow radix2 0); apply bpow_le; clear; destruct f; discriminate).
  assert (Sq : (Rabs (val f b * val f b) <= / 4 * eta f)%R). { rewrite Rabs_mult. apply Rle_trans with (bpow radix2 (tiny_lim f) * bpow radix2 (tiny_lim f))%R; [apply Rmult_le_compat; auto using Rabs_pos|]. unfold eta. change (/ 4)%R with (bpow radix2 (-2)). rewrite <- !bpow_plus. apply bpow_le. clear. destruct f; discriminate. }
  destruct (mul_ok nn Wb Wb) as (_ & C & _). destruct (C Fb Fb) as [C1 _]. clear C.
  destruct (@cr_val _ _ C1 ltac:(lra)) as [Fz Vz]. rewrite rnd_tiny in Vz by (fold (eta f); lra). assert (Wz : word W (fmul nn f b b)) by apply fmul_word. pose proof (is_zero Wz Fz Vz) as Z. set (z := fmul nn f b b) in *. clearbody z. clear C1.
  pose proof (@patan_zero z fm nn X HX HF Z) as Zw. cbv zeta in Zw. set (w := fmul nn f z _) in *. clearbody w. destruct (zero_vals Zw) as (Ww & Fw & Vw).
  unfold fmadd1. destruct fm.
  - assert (C := fma_ok nn Wb Ww Wb). specialize (C (conj Fb (conj Fw Fb))). rewrite Vw, Rmult_0_r, Rplus_0_l in C. destruct (@cr_val _ _ C ltac:(lra)) as [_ V]. rewrite V. apply rnd_id, fmt_val.
  - destruct (mul_ok nn Wb Ww) as (_ & C & _). destruct (C Fb Fw) as [C1 _]. clear C. rewrite Vw, Rmult_0_r in C1. destruct (@cr_val _ _ C1 ltac:(rewrite Rabs_R0; lra)) as [Fp Vp]. rewrite rnd_0 in Vp. assert (Wp : word W (fmul nn f b w)) by apply fmul_word. set (p := fmul nn f b w) in *. clearbody p.
    destruct (add_ok nn Wp Wb) as (_ & C & _). destruct (C Fp Fb) as [C2 _]. rewrite Vp, Rplus_0_l in C2. destruct (@cr_val _ _ C2 ltac:(lra)) as [_ V]. rewrite V. apply rnd_id, fmt_val.
Qed.
(** purely relative *)
Lemma patan_rel b : word W b -> isfin f b = true -> (Rabs (val f b) <= 6601 / 10000)%R -> (Rabs (val f (patan1 (X := X) fm nn b) - atan (val f b)) <= 72 / 10 * u * Rabs (val f b))%R.
Proof.
  intros Wb Fb Bb. pose proof (pr_small f) as P0. pose proof (Rabs_pos (val f b)) as B0. destruct (Rle_lt_dec (Rabs (val f b)) (bpow radix2 (tiny_lim f))) as [L|L].
  - rewrite patan_tiny by auto. set (v := val f b) in *. assert (T : (Rabs (v - atan v) <= Rabs v * (Rabs v * Rabs v))%R).
    { pose proof (atan_taylor 1 (Rabs v) B0) as T. cbn [hornerR atc fold_right] in T. replace (Rabs v * (1 / INR 1 + Rabs v * Rabs v * 0))%R with (Rabs v) in T by (change (INR 1) with 1%R; field). cbn [pow] in T. rewrite Rmult_1_r in T. eapply Rle_trans; [|exact T]. right.
      destruct (Rle_lt_dec 0 v) as [N|N]; [rewrite !(Rabs_pos_eq v) by auto; apply Rabs_minus_sym|]. rewrite !(Rabs_left v) by auto. rewrite atan_opp. f_equal. ring. }
    eapply Rle_trans; [exact T|]. assert (Q : (Rabs v * Rabs v <= u)%R). { apply Rle_trans with (bpow radix2 (tiny_lim f) * bpow radix2 (tiny_lim f))%R; [apply Rmult_le_compat; auto|]. rewrite <- bpow_plus. apply bpow_le. clear. destruct f; discriminate. }
    assert (Rabs v * (Rabs v * Rabs v) <= Rabs v * u)%R by (apply Rmult_le_compat_l; auto). assert (0 <= Rabs v * u)%R by (apply Rmult_le_pos; lra). lra.
  - destruct (patan_err Wb Fb Bb) as (_ & _ & E). eapply Rle_trans; [exact E|]. assert (K : (15 * eta f <= u * Rabs (val f b))%R).
    { apply Rle_trans with (16 * eta f)%R; [pose proof (eta_small f); lra|]. apply Rle_trans with (u * bpow radix2 (tiny_lim f))%R; [|apply Rmult_le_compat_l; lra]. unfold eta. change 16%R with (bpow radix2 4). rewrite <- !bpow_plus. apply bpow_le. clear. destruct f; discriminate. }
    lra.
Qed.
Lemma fin_feq_inf b : word W b -> isfin f b = true -> feq W b (finf W) = false.
Proof.
  intros Wb Fb. rewrite (isfin_spec Wb) in Fb. unfold feq. assert (N : fnan W (finf W) = false) by (clear; destruct f; reflexivity). rewrite N. replace (fkey W (finf W)) with (finf W) by (clear; destruct f; reflexivity).
  unfold fkey. pose proof (fin_word f Wb) as M. assert (0 <= fmag W b) by (unfold fmag; apply Z.mod_pos_bound; clear; destruct f; reflexivity). destruct (fnan W b), (fsign W b); cbn [negb andb]; auto; lia.
Qed.
Lemma eatan_err a : word W a -> isfin f a = true -> (0 <= val f a)%R -> within f (16 * u * atan (val f a)) (atan (val f a)) (eatan1 (X := X) fm nn a).
Proof.
  intros Wa Fa A0. set (v := val f a) in *. pose proof (eta_small f) as E0. pose proof (eta_u f) as EU. pose proof (pr_small f) as P0. destruct (c_tan3_ok f) as (W3 & F3 & V3). destruct (c_p66_ok f) as (W6 & F6 & V6).
  destruct (mone_ok f) as (Wm & Fm & Vm). destruct (@fone_ok f) as (W1 & F1 & V1). destruct (c_off2_ok f) as (Wo & Fo & Vo). destruct (c_pio2_ok f) as (W2 & F2 & V2). destruct (c_pio4_ok f) as (W4 & F4 & V4). destruct pi4_bounds as [PL PH].
  unfold eatan1, ared1. cbv zeta. rewrite !(xw_fw HX HF). rewrite (flt_val W3 Wa F3 Fa), (flt_val W6 Wa F6 Fa). fold v.
  destruct (Rlt_bool_spec (val f (c_tan3pio8 W)) v) as [H3|H3]; [|destruct (Rlt_bool_spec (val f (c_p66 W)) v) as [H6|H6]]; cbn [orb].
  - assert (NZ : feq W a 0 = false). { destruct (@zero_ok f) as (W0 & F00 & _). destruct (feq W a 0) eqn:Q; auto. exfalso. apply (@feq_val X) in Q; auto. fold v in Q. rewrite fmt_0 in Q. lra. }
    rewrite NZ. assert (Bq : (0 < / v <= 4143 / 10000)%R). { split; [apply Rinv_0_lt_compat; lra|]. apply Rmult_le_reg_r with v; [lra|]. rewrite Rinv_l by lra. nra. }
    assert (Q1 : (Rabs (-1 / v) <= 4143 / 10000)%R) by (apply Rabs_le; unfold Rdiv; lra).
    destruct (@o_div nn f _ a Wm Wa Fm Fa ltac:(fold v; lra) ltac:(rewrite Vm; fold v; lra)) as (Wb & Fb & Eb). rewrite Vm in Eb. fold v in Eb. set (b := fdiv nn f _ a) in *. clearbody b.
    assert (Eb' : (Rabs (val f b - -1 / v) <= 42 / 100 * u)%R) by (pose proof (opb Eb EU Q1); lra). assert (Bb : (Rabs (val f b) <= 415 / 1000)%R) by (pose proof (near_abs Eb' Q1); lra).
    destruct (@patan_err b Wb Fb ltac:(lra)) as (Wp & Fp & Ep). set (p := patan1 fm nn b) in *. clearbody p. rewrite (fin_feq_inf Wb Fb).
    assert (AL := atan_lip (val f b) (-1 / v)). rewrite atan_big in AL by lra.
    assert (Tp : (Rabs (val f p - (atan v - PI / 2)) <= 34 / 10 * u)%R). { pose proof (tri Ep AL) as T. pose proof (ub f Bb). lra. }
    assert (AV : (PI / 4 <= atan v <= PI / 2)%R). { split; [rewrite <- atan_1; apply atan_le; lra|]. pose proof (atan_bound v). lra. }
    assert (Bp : (Rabs (val f p) <= 42 / 100)%R). { assert (AB : (Rabs (atan (val f b)) <= 415 / 1000)%R) by (pose proof (atan_lip (val f b) 0) as L0; rewrite atan_0, !Rminus_0_r in L0; lra). pose proof (near_abs Ep AB). pose proof (ub f Bb). lra. }
    apply Rabs_le_inv in Tp. apply Rabs_le_inv in V2. apply Rabs_le_inv in Bp.
    destruct (@o_add nn f p _ Wp Wo Fp Fo ltac:(apply Rabs_le; lra)) as (Wz1 & Fz1 & Ez1). set (z1 := fadd nn f p _) in *. clearbody z1.
    assert (Z1 : (Rabs (val f z1 - val f p) <= u)%R). { assert (Rabs (val f p + val f (c_asin_off2 W)) <= 43 / 100)%R by (apply Rabs_le; lra). assert (Q := opb Ez1 EU H). apply Rabs_le_inv in Q. apply Rabs_le. lra. } clear Ez1. apply Rabs_le_inv in Z1.
    destruct (@o_add nn f z1 _ Wz1 Wo Fz1 Fo ltac:(apply Rabs_le; lra)) as (Wz2 & Fz2 & Ez2). set (z2 := fadd nn f z1 _) in *. clearbody z2.
    assert (Z2 : (Rabs (val f z2 - val f z1) <= u)%R). { assert (Rabs (val f z1 + val f (c_asin_off2 W)) <= 44 / 100)%R by (apply Rabs_le; lra). assert (Q := opb Ez2 EU H). apply Rabs_le_inv in Q. apply Rabs_le. lra. } clear Ez2. apply Rabs_le_inv in Z2.
    destruct (@o_add nn f _ z2 W2 Wz2 F2 Fz2 ltac:(apply Rabs_le; lra)) as (Wy & Fy & Ey). set (y := fadd nn f _ z2) in *. clearbody y. split; auto.
    assert (S : (Rabs (val f (c_pio2 W) + val f z2) <= 16 / 10)%R) by (apply Rabs_le; lra). assert (Ey' := opb Ey EU S). apply Rabs_le_inv in Ey'. clear Ey. assert (M : (u * (785 / 1000) <= u * atan v)%R) by (apply Rmult_le_compat_l; lra). apply Rabs_le. split; lra.
  - assert (Bn : (-341 / 1000 <= v - 1 <= 14143 / 10000)%R) by lra.
    destruct (@o_add nn f a _ Wa Wm Fa Fm ltac:(fold v; rewrite Vm; apply Rabs_le; lra)) as (Wn & Fn & En). rewrite Vm in En. fold v in En. set (n := fadd nn f a (2 ^ (W - 1) + fone W)) in *. clearbody n.
    destruct (@o_add nn f a _ Wa W1 Fa F1 ltac:(fold v; rewrite V1; apply Rabs_le; lra)) as (Wd & Fd & Ed). rewrite V1 in Ed. fold v in Ed. set (d := fadd nn f a (fone W)) in *. clearbody d.
    set (q := ((v - 1) / (v + 1))%R). assert (Eq : (q * (v + 1) = v - 1)%R) by (unfold q; field; lra). assert (Bq : (-206 / 1000 <= q <= 4144 / 10000)%R) by (clearbody q; split; nra).
    assert (AQ := @atan_mid v ltac:(lra)). fold q in AQ. clearbody q.
    assert (Aq : (Rabs q <= 4144 / 10000)%R) by (apply Rabs_le; lra).
    replace (v + -1)%R with (v - 1)%R in En by ring.
    assert (An : (Rabs (v - 1) <= 14143 / 10000)%R) by (apply Rabs_le; lra). rewrite (Rabs_pos_eq (v + 1)) in Ed by lra.
    assert (Dl : (1657 / 1000 <= val f d)%R) by (apply Rabs_le_inv in Ed; assert (u * (v + 1) <= / 1024 * (v + 1))%R by (apply Rmult_le_compat_r; lra); lra).
    assert (Rq : (Rabs (val f n / val f d - q) <= 172 / 100 * u)%R).
    { assert (R1 : (Rabs (val f n - q * val f d) <= 284 / 100 * u)%R).
      { replace (val f n - q * val f d)%R with ((val f n - (v - 1)) + - (q * (val f d - (v + 1))))%R by (rewrite <- Eq; ring). eapply Rle_trans; [apply Rabs_triang|]. rewrite Rabs_Ropp, Rabs_mult.
        assert (Rabs q * Rabs (val f d - (v + 1)) <= 4144 / 10000 * (u * (v + 1) + eta f))%R by (apply Rmult_le_compat; try apply Rabs_pos; lra). pose proof (ub f An). assert (Bv : (v + 1 <= 34143 / 10000)%R) by lra. pose proof (ub f Bv). lra. }
      replace (val f n / val f d - q)%R with ((val f n - q * val f d) * / val f d)%R by (field; lra). rewrite Rabs_mult, (Rabs_pos_eq (/ _)) by (left; apply Rinv_0_lt_compat; lra).
      apply Rmult_le_reg_r with (val f d); [lra|]. rewrite Rmult_assoc, Rinv_l, Rmult_1_r by lra. pose proof (ub f Dl). lra. }
    destruct (@o_div nn f n d Wn Wd Fn Fd ltac:(lra)) as (Wb & Fb & Eb). { pose proof (near_abs Rq Aq). lra. } set (b := fdiv nn f n d) in *. clearbody b.
    assert (Eb' : (Rabs (val f b - q) <= 215 / 100 * u)%R). { assert (Z : (Rabs (val f n / val f d) <= 42 / 100)%R) by (pose proof (near_abs Rq Aq); lra). assert (Z2 := opb Eb EU Z). pose proof (tri Z2 Rq). lra. }
    assert (Bb : (Rabs (val f b) <= 417 / 1000)%R) by (pose proof (near_abs Eb' Aq); lra).
    destruct (@patan_err b Wb Fb ltac:(lra)) as (Wp & Fp & Ep). set (p := patan1 fm nn b) in *. clearbody p. rewrite (fin_feq_inf Wb Fb).
    assert (AL := atan_lip (val f b) q). rewrite AQ in AL.
    assert (Tp : (Rabs (val f p - (atan v - PI / 4)) <= 51 / 10 * u)%R). { pose proof (tri Ep AL) as T. pose proof (ub f Bb). lra. }
    assert (AV : (579 / 1000 <= atan v)%R). { pose proof (atan_lip q 0) as L0. rewrite atan_0, !Rminus_0_r, AQ in L0. destruct (Rle_dec q 0) as [N|N]. - rewrite (Rabs_left1 q) in L0 by lra. apply Rabs_le_inv in L0. lra. - assert (1 <= v)%R by nra. assert (atan 1 <= atan v)%R by now apply atan_le. rewrite atan_1 in *. lra. }
    assert (Bp : (Rabs (val f p) <= 42 / 100)%R). { assert (AB : (Rabs (atan (val f b)) <= 417 / 1000)%R) by (pose proof (atan_lip (val f b) 0) as L0; rewrite atan_0, !Rminus_0_r in L0; lra). pose proof (near_abs Ep AB). pose proof (ub f Bb). lra. }
    apply Rabs_le_inv in Tp. apply Rabs_le_inv in V4. apply Rabs_le_inv in Bp.
    destruct (@o_add nn f p _ Wp Wo Fp Fo ltac:(apply Rabs_le; lra)) as (Wz1 & Fz1 & Ez1). set (z1 := fadd nn f p _) in *. clearbody z1.
    assert (Z1 : (Rabs (val f z1 - val f p) <= u)%R). { assert (Rabs (val f p + val f (c_asin_off2 W)) <= 43 / 100)%R by (apply Rabs_le; lra). assert (Q := opb Ez1 EU H). apply Rabs_le_inv in Q. apply Rabs_le. lra. } clear Ez1. apply Rabs_le_inv in Z1.
    destruct (@add_0r nn f z1 Wz1 Fz1 ltac:(apply Rabs_le; lra)) as (Wz2 & Fz2 & Vz2). set (z2 := fadd nn f z1 0) in *. clearbody z2.
    destruct (@o_add nn f _ z2 W4 Wz2 F4 Fz2 ltac:(apply Rabs_le; lra)) as (Wy & Fy & Ey). set (y := fadd nn f _ z2) in *. clearbody y. split; auto.
    assert (S : (Rabs (val f (c_pio4 W) + val f z2) <= 122 / 100)%R) by (apply Rabs_le; lra). assert (Ey' := opb Ey EU S). apply Rabs_le_inv in Ey'. clear Ey. assert (M : (u * (579 / 1000) <= u * atan v)%R) by (apply Rmult_le_compat_l; lra). apply Rabs_le. split; lra.
  - destruct (@patan_err a Wa Fa) as (Wp & Fp & Ep). { fold v. rewrite Rabs_pos_eq by lra. lra. } fold v in Ep. rewrite (Rabs_pos_eq v) in Ep by lra. assert (Er := @patan_rel a Wa Fa ltac:(fold v; rewrite Rabs_pos_eq; lra)). fold v in Er. rewrite (Rabs_pos_eq v) in Er by lra. set (p := patan1 fm nn a) in *. clearbody p. rewrite (fin_feq_inf Wa Fa).
    assert (AL := @atan_low v ltac:(lra)). assert (AV : (atan v <= v)%R). { pose proof (atan_lip v 0) as L0. rewrite atan_0, !Rminus_0_r in L0. rewrite (Rabs_pos_eq v) in L0 by lra. apply Rabs_le_inv in L0. lra. }
    assert (Bp : (Rabs (val f p) <= 1)%R). { assert (Rabs (atan v) <= 67 / 100)%R by (apply Rabs_le; lra). pose proof (near_abs Ep H) as N. assert (Bv : (v <= 67 / 100)%R) by lra. pose proof (ub f Bv). lra. }
    destruct (@add_0r nn f p Wp Fp ltac:(lra)) as (Wz1 & Fz1 & Vz1). destruct (@add_0r nn f _ Wz1 Fz1 ltac:(rewrite Vz1; lra)) as (Wz2 & Fz2 & Vz2). destruct (@add_0l nn f _ Wz2 Fz2 ltac:(rewrite Vz2, Vz1; lra)) as (Fy & Vy). split; auto. rewrite Vy, Vz2, Vz1.
    eapply Rle_trans; [exact Er|]. assert (u * (/ 2 * v) <= u * atan v)%R by (apply Rmult_le_compat_l; lra). assert (0 <= u * v)%R by (apply Rmult_le_pos; lra). lra.
Qed.
Lemma lxor_sx x y : word W y -> isfin f y = true -> isfin f (Z.lxor y (sx1 (X := X) x)) = true /\ val f (Z.lxor y (sx1 (X := X) x)) = (sgm (fsign W x) * val f y)%R.
Proof.
  intros Wy Fy. unfold sx1. rewrite (xw_fw HX HF). destruct (fsign W x); cbn [sgm sbit].
  - destruct (flip_ok (f := f) Wy) as (_ & F & V & _). unfold flip in *. rewrite F, V. split; auto. ring.
  - rewrite Z.lxor_0_r. split; auto. ring.
Qed.
Lemma eatan_word a : word W (eatan1 (X := X) fm nn a).
Proof. unfold eatan1. cbv zeta. rewrite !(xw_fw HX HF). destruct (feq _ _ _); [apply c_pio2_ok|apply fadd_word]. Qed.
Lemma atan_err x : word W x -> isfin f x = true -> within f (16 * u * Rabs (atan (val f x))) (atan (val f x)) (atan1 (X := X) fm nn x).
Proof.
  intros Hx Fx. destruct (mag_val HF Hx Fx) as (Wa & Fa & Va). unfold atan1. rewrite (ab_mag HX HF Hx). set (a := fmag W x) in *. clearbody a.
  destruct (@eatan_err a Wa Fa ltac:(rewrite Va; apply Rabs_pos)) as (F & E). destruct (@lxor_sx x _ (eatan_word a) F) as [F' V']. split; auto. rewrite V'.
  assert (S : atan (val f x) = (sgm (fsign W x) * atan (val f a))%R). { rewrite Va, (val_sgn Hx Fx) at 1. destruct (fsign W x); cbn [sgm]; [|now rewrite !Rmult_1_l]. replace (-1 * Rabs (val f x))%R with (- Rabs (val f x))%R by ring. rewrite atan_opp. ring. }
  rewrite S. rewrite <- Rmult_minus_distr_l, !Rabs_mult. replace (Rabs (sgm (fsign W x))) with 1%R by (destruct (fsign W x); cbn [sgm]; unfold Rabs; destruct (Rcase_abs _); lra). rewrite !Rmult_1_l.
  assert (P : (0 <= atan (val f a))%R). { rewrite <- atan_0. apply atan_le. rewrite Va. apply Rabs_pos. } rewrite (Rabs_pos_eq (atan _)) by auto. exact E.
Qed.
End A.
Close Scope Z_scope.
