(** C37: round without SSE4.1 decided for every finite number. *)
From Coq Require Import ZifyBool ZifyNat Reals Lra.
From Flocq Require Import Core IEEE754.BinarySingleNaN IEEE754.Binary.
From Verif Require Import Base Cxx Spec X86Vec X86 X86Lemmas X86Proofs X86Masks X86Ops X86Shift Fp FpLemmas FpOps FKern FMath FMathProofs FNext PropX86 PropFloat
  FLane FManip FManipLanes FFields FScalbn FRoute FRouteProofs PropManip Cvt CvtProofs PropCvt Logb LogbProofs PropLogb Round RoundProofs RoundLanes RoundSem RoundVec PropRound PropRoundRange PropRoundFar FErr.
Set Implicit Arguments.
Local Open Scope Z_scope.
Local Notation bp := (bpow radix2).

Lemma rel20 f s : (1 <= s)%R -> (s - s / 1048576 <= rnd f s <= s + s / 1048576)%R.
Proof.
  intros H. pose proof (rnd_rel f s) as R. rewrite (Rabs_pos_eq s) in R by lra.
  assert (P : (bp (- prec f) <= / 16777216)%R). { change (/ 16777216)%R with (bp (- 24)). apply bpow_le. destruct f; cbn; lia. }
  assert (Q : (bp (emin f - 1) <= / 16777216)%R). { change (/ 16777216)%R with (bp (- 24)). apply bpow_le. destruct f; cbn; lia. }
  assert (bp (- prec f) * s <= / 16777216 * s)%R by (apply Rmult_le_compat_r; lra). apply Rabs_le_inv in R. lra.
Qed.
Lemma opp_rnd f s : rnd f (- s) = (- rnd f s)%R. Proof. apply rnd_opp. Qed.
Lemma cst : bp 31 = 2147483648%R /\ bp 32 = 4294967296%R /\ IZR (- 2 ^ 31) = (-2147483648)%R /\ IZR (- 2 ^ 32) = (-4294967296)%R /\ IZR (2 ^ 31) = 2147483648%R.
Proof. repeat split. Qed.

Section S.
Context (nn : nans) {f : fmt} (x : Z) (Wx : word (fw f) x) (Fx : isfin f x = true) (e : R) (Vx : val f x = (- 2147483648 - e)%R) (He : (1 <= e <= 2147483648 + / 2)%R).
Let t := fof_int f (- 2 ^ 31).
Let r := fmul nn f (fsub nn f x t) (near2 (fw f)).
Let b := rnd f (rnd f e * (2 - 2 * bp (- prec f))).
Let y := fadd nn f t (fof_int f (sgn 32 (fto_int nn f mode_ZR 32 r))).
Lemma c_bound : (2 - / 4194304 <= 2 - 2 * bp (- prec f) <= 2)%R.
Proof.
  assert (P : (bp (- prec f) <= / 16777216)%R). { change (/ 16777216)%R with (bp (- 24)). apply bpow_le. destruct f; cbn; lia. }
  pose proof (bpow_gt_0 radix2 (- prec f)). lra.
Qed.
Lemma b_bound : (1.9 * e <= b <= 2.1 * e)%R.
Proof.
  pose proof (@rel20 f e ltac:(lra)) as A. pose proof c_bound as C. set (a := rnd f e) in *. set (c := (2 - 2 * bp (- prec f))%R) in *.
  assert (B1 : (a * c <= a * 2)%R) by (apply Rmult_le_compat_l; lra). assert (B2 : (a * (2 - / 4194304) <= a * c)%R) by (apply Rmult_le_compat_l; lra).
  pose proof (@rel20 f (a * c) ltac:(lra)) as B. unfold b. fold a c. lra.
Qed.
Lemma emax_bound s : (Rabs s <= 100000000000)%R -> (Rabs s < bp (emax f))%R.
Proof. intros H. apply Rle_lt_trans with (1 := H). apply Rlt_le_trans with (bp 40); [change (bp 40) with 1099511627776%R; lra|apply bpow_le; destruct f; cbn; lia]. Qed.
Lemma r_ok : word (fw f) r /\ isfin f r = true /\ val f r = (- b)%R.
Proof.
  destruct (low_tx f) as (Wt & Ft & Vt). fold t in Wt, Ft, Vt. destruct (@near2_ok f) as (Wn & Fn & Vn). pose proof (@rel20 f e ltac:(lra)) as A. pose proof b_bound as B.
  assert (D : (val f x - val f t = - e)%R). { rewrite Vx, Vt. destruct cst as (_ & _ & -> & _). lra. }
  destruct (@fsub_fin nn f x t) as (S1 & S2 & _); auto. { rewrite D, opp_rnd, Rabs_Ropp. apply emax_bound. rewrite Rabs_pos_eq; lra. } rewrite D, opp_rnd in S1.
  assert (Wq := @fsub_word nn f x t). assert (M : rnd f (val f (fsub nn f x t) * val f (near2 (fw f))) = (- b)%R). { rewrite S1, Vn. rewrite Ropp_mult_distr_l_reverse, opp_rnd. reflexivity. }
  destruct (@fmul_fin nn f (fsub nn f x t) (near2 (fw f))) as (M1 & M2 & _); auto. { rewrite M, Rabs_Ropp. apply emax_bound. rewrite Rabs_pos_eq; lra. }
  split; [apply fmul_word|]. split; auto. unfold r. now rewrite M1.
Qed.
Lemma tr_r : Ztrunc (val f r) = - Zfloor b.
Proof. destruct r_ok as (_ & _ & ->). rewrite Ztrunc_opp. rewrite Ztrunc_floor; auto. pose proof b_bound. lra. Qed.
Lemma y_ok : isfin f y = true /\ val f y = if Zfloor b <=? 2 ^ 31 then (- rnd f (2147483648 + rnd f (IZR (Zfloor b))))%R else (- 4294967296)%R.
Proof.
  destruct (low_tx f) as (Wt & Ft & Vt). fold t in Wt, Ft, Vt. destruct r_ok as (Wr & Fr & _). pose proof tr_r as T. pose proof b_bound as B.
  assert (N0 : 0 <= Zfloor b) by (apply Zfloor_lub; lra). destruct cst as (_ & C32 & C31 & _ & C31'). rewrite C31 in Vt.
  destruct (Z.leb_spec (Zfloor b) (2 ^ 31)) as [L|L].
  - assert (E : fto_int nn f mode_ZR 32 r = wrap 32 (- Zfloor b)). { rewrite (@fto_int_ok nn f mode_ZR 32 r); auto; cbn [round_mode]; rewrite ?T; auto; cbn; lia. }
    unfold y. rewrite E, sgn_wrap by (cbn; lia). destruct (@fof_int_ok f (- Zfloor b)) as (Wu & Fu & Vu & _). { lia. } rewrite opp_IZR, opp_rnd in Vu.
    set (u := fof_int f (- Zfloor b)) in *. clearbody u. assert (D : (val f t + val f u = - (2147483648 + rnd f (IZR (Zfloor b))))%R) by (rewrite Vt, Vu; lra).
    assert (K : (0 <= rnd f (IZR (Zfloor b)) <= bp 31)%R). { split; [rewrite <- (@rnd_id f 0) by apply generic_format_0; apply rnd_mono; now apply IZR_le|]. rewrite <- (@rnd_bpow f 31) by lia. apply rnd_mono. rewrite <- IZR_Zpower by lia. now apply IZR_le. }
    assert (K2 : (0 <= rnd f (2147483648 + rnd f (IZR (Zfloor b))) <= bp 32)%R). { destruct cst as (C31'' & _). split; [rewrite <- (@rnd_id f 0) at 1 by apply generic_format_0; apply rnd_mono; lra|]. rewrite <- (@rnd_bpow f 32) by lia. apply rnd_mono. lra. }
    destruct (@fadd_fin nn f t u) as (A1 & A2 & _); auto. { rewrite D, opp_rnd, Rabs_Ropp. apply emax_bound. rewrite Rabs_pos_eq; lra. } split; auto. now rewrite A1, D, opp_rnd.
  - assert (E : fto_int nn f mode_ZR 32 r = 2 ^ 31). { rewrite fto_int_bad; auto. right. cbn [round_mode]. rewrite T. unfold fits. cbn. lia. }
    unfold y. rewrite E. change (sgn 32 (2 ^ 31)) with (- 2 ^ 31). fold t. assert (D : rnd f (val f t + val f t) = (- 4294967296)%R). { rewrite Vt. replace (-2147483648 + -2147483648)%R with (- bp 32)%R by lra. rewrite opp_rnd, rnd_bpow by lia. lra. }
    destruct (@fadd_fin nn f t t) as (A1 & A2 & _); auto. { rewrite D. apply emax_bound. rewrite Rabs_left; lra. } split; auto. now rewrite A1, D.
Qed.

Lemma away_x : away (val f x) = - Zfloor (2147483648 + e + / 2).
Proof. unfold away. rewrite Vx. rewrite Rlt_bool_true by lra. do 2 f_equal. lra. Qed.
Lemma grid : exists m, (2147483648 + e = IZR m * bp (31 - mw f))%R.
Proof.
  assert (G := @fmt_val f x). apply (@fmt_mult f (2147483648 + e)%R 31).
  - replace (2147483648 + e)%R with (- val f x)%R by (rewrite Vx; lra). now apply generic_format_opp.
  - destruct cst as (-> & _). lra.
Qed.
Lemma y_flt : f = F32 -> (e < 2147483648 - / 2)%R -> ~ rounds_val f away x y.
Proof.
  intros Ef L [_ V]. rewrite away_x, opp_IZR in V. destruct y_ok as [_ Vy]. pose proof b_bound as B. destruct grid as [m Gm]. pose proof (Zfloor_lb (2147483648 + e + / 2)) as Q.
  pose proof (Zfloor_ub b) as Nu. pose proof (Zfloor_lb b) as Nl. assert (L2 : (IZR (Zfloor (2147483648 + e + / 2)) < 4294967296)%R) by lra.
  assert (E256 : (256 <= e)%R). { clear -Gm He Ef. rewrite Ef in Gm. change (bp (31 - mw F32)) with 256%R in Gm. assert (8388608 < m) by (apply lt_IZR; lra). assert (IZR 8388609 <= IZR m)%R by (apply IZR_le; lia). lra. }
  destruct (Z.leb_spec (Zfloor b) (2 ^ 31)) as [C|C]; [|lra].
  pose proof (@rel20 f (IZR (Zfloor b)) ltac:(lra)) as R1. set (n := rnd f (IZR (Zfloor b))) in *.
  pose proof (rnd_rel f (2147483648 + n)) as R2. rewrite (Rabs_pos_eq (2147483648 + n)) in R2 by lra. apply Rabs_le_inv in R2.
  assert (P : bp (- prec f) = (/ 16777216)%R) by (rewrite Ef; reflexivity). assert (Z : (bp (emin f - 1) <= 1)%R) by (change 1%R with (bp 0); apply bpow_le; rewrite Ef; cbn; lia).
  rewrite P in R2. lra.
Qed.
Lemma y_dbl : f = F64 -> (e < 2147483648 - / 2)%R -> (rounds_val f away x y <-> e = 1%R \/ e = (3 / 2)%R).
Proof.
  intros Ef L. pose proof b_bound as B. destruct grid as [m Gm]. pose proof (Zfloor_lb b) as Nl. pose proof (Zfloor_ub b) as Nu. assert (b0 : b = rnd f (rnd f e * (2 - 2 * bp (- prec f)))%R) by reflexivity.
  destruct y_ok as [Fy Vy]. unfold rounds_val. rewrite away_x, opp_IZR, Vy. clear Vy. pose proof (Zfloor_lb (2147483648 + e + / 2)) as Ql. pose proof (Zfloor_ub (2147483648 + e + / 2)) as Qu.
  destruct (Z.leb_spec (Zfloor b) (2 ^ 31)) as [C|C].
  2: { assert (QQ : (2147483649 <= IZR (Zfloor b))%R) by (apply IZR_le; lia). split; [intros [_ V]; lra|intros [H|H]; lra]. }
  assert (N0 : 0 <= Zfloor b) by (apply Zfloor_lub; lra).
  assert (I1 : rnd f (IZR (Zfloor b)) = IZR (Zfloor b)). { apply rnd_id, fmt_int. rewrite Ef. change (prec F64) with 53. lia. }
  assert (I2 : rnd f (2147483648 + rnd f (IZR (Zfloor b))) = (2147483648 + IZR (Zfloor b))%R). { rewrite I1. rewrite <- plus_IZR. apply rnd_id, fmt_int. rewrite Ef. change (prec F64) with 53. lia. }
  rewrite I2. set (N := Zfloor b) in *. set (A := Zfloor (2147483648 + e + / 2)) in *.
  assert (S : (isfin f y = true /\ (- (2147483648 + IZR N))%R = (- IZR A)%R) <-> A = 2147483648 + N). { split; [intros [_ V]; apply eq_IZR; rewrite plus_IZR; lra|intros ->; split; auto; rewrite plus_IZR; lra]. }
  rewrite S. clear S I1 I2. assert (P : bp (- prec f) = (/ 9007199254740992)%R) by (rewrite Ef; reflexivity). rewrite P in b0.
  rewrite Ef in Gm. change (bp (31 - mw F64)) with (/ 2097152)%R in Gm.
  assert (FM : forall k j, Z.abs k <= 2 ^ 53 -> -1000 <= j -> generic_format radix2 (SpecFloat.fexp (prec f) (emax f)) (IZR k * bp j)). { intros k j H1 H2. apply fmt_ok; rewrite Ef; [exact H1|]. cbn. lia. }
  destruct (Rle_lt_dec (17 / 10) e) as [H17|H17]. { split; [|intros [H|H]; lra]. intros H. exfalso. rewrite H, plus_IZR in Ql. lra. }
  assert (F15 : generic_format radix2 (SpecFloat.fexp (prec f) (emax f)) (3 / 2)). { replace (3 / 2)%R with (IZR 3 * bp (-1))%R by (change (bp (-1)) with (/ 2)%R; lra). apply FM; lia. }
  assert (AI : forall k, (2147483648 + IZR k <= 2147483648 + e + / 2 < 2147483648 + IZR k + 1)%R -> A = 2147483648 + k). { intros k H. apply Zfloor_imp. rewrite !plus_IZR. lra. }
  destruct (Req_dec e 1) as [H1|H1].
  { split; auto. intros _. rewrite (AI 1) by lra. f_equal. rewrite H1 in b0. rewrite (@rnd_id f 1) in b0 by (replace 1%R with (IZR 1 * bp 0)%R by (cbn; ring); apply FM; lia).
    unfold N. symmetry. apply Zfloor_imp. cbn. assert (b = 2 - 2 * / 9007199254740992)%R; [|lra]. rewrite b0, Rmult_1_l. apply rnd_id.
    replace (2 - 2 * / 9007199254740992)%R with (IZR (2 ^ 53 - 1) * bp (-52))%R by (change (bp (-52)) with (/ 4503599627370496)%R; rewrite minus_IZR; change (IZR (2 ^ 53)) with 9007199254740992%R; lra). apply FM; lia. }
  destruct (Req_dec e (3 / 2)) as [H2|H2].
  { split; auto. intros _. rewrite (AI 2) by lra. f_equal. rewrite H2, (rnd_id F15) in b0. unfold N. symmetry. apply Zfloor_imp. cbn. split; [lra|].
    assert (G : generic_format radix2 (SpecFloat.fexp (prec f) (emax f)) (3 - / 2251799813685248)). { replace (3 - / 2251799813685248)%R with (IZR (3 * 2 ^ 51 - 1) * bp (-51))%R by (change (bp (-51)) with (/ 2251799813685248)%R; rewrite minus_IZR; change (IZR (3 * 2 ^ 51)) with 6755399441055744%R; lra). apply FM; lia. }
    destruct (@round_N_pt radix2 (SpecFloat.fexp (prec f) (emax f)) _ (fun x => negb (Z.even x)) (3 / 2 * (2 - 2 * / 9007199254740992))) as [_ Nr].
    specialize (Nr _ G). match type of Nr with (Rabs (?z - _) <= _)%R => change z with (rnd f (3 / 2 * (2 - 2 * / 9007199254740992))) in Nr end. rewrite <- b0 in Nr.
    rewrite (Rabs_left (3 - / 2251799813685248 - 3 / 2 * (2 - 2 * / 9007199254740992))) in Nr by lra. apply Rabs_le_inv in Nr. lra. }
  split; [|intros [H|H]; lra]. intros HA. exfalso.
  assert (K : forall k, (IZR k / 2097152 < e -> IZR (k + 1) / 2097152 <= e)%R). { intros k Hk. assert (k < m - 4503599627370496) by (apply lt_IZR; rewrite minus_IZR; lra). assert (IZR (k + 1) <= IZR (m - 4503599627370496))%R by (apply IZR_le; lia). rewrite minus_IZR in *. lra. }
  assert (KK : forall k, Z.abs k <= 2 ^ 53 -> (IZR k / 2097152 <= e -> IZR k / 2097152 <= rnd f e)%R). { intros k Hk Hl. apply rnd_ge_fmt; auto. replace (IZR k / 2097152)%R with (IZR k * bp (-21))%R by reflexivity. apply FM; lia. }
  destruct (Rlt_le_dec e (3 / 2)) as [H3|H3].
  - pose proof (@AI 1 ltac:(lra)) as A1. pose proof (K 2097152 ltac:(lra)) as K1. apply KK in K1; [|lia]. change (IZR (2097152 + 1)) with 2097153%R in K1.
    assert (2 <= b)%R. { rewrite b0. apply rnd_ge_fmt; [replace 2%R with (IZR 2 * bp 0)%R by (cbn; ring); apply FM; lia|lra]. } assert (2 <= N) by now apply Zfloor_lub. lia.
  - pose proof (@AI 2 ltac:(lra)) as A1. pose proof (K 3145728 ltac:(lra)) as K1. apply KK in K1; [|lia]. change (IZR (3145728 + 1)) with 3145729%R in K1.
    assert (3 <= b)%R. { rewrite b0. apply rnd_ge_fmt; [replace 3%R with (IZR 3 * bp 0)%R by (cbn; ring); apply FM; lia|lra]. } assert (3 <= N) by now apply Zfloor_lub. lia.
Qed.
Lemma y_low : (2147483648 - / 2 <= e)%R -> (rounds_val f away x y <-> (e < 2147483648 + / 2)%R).
Proof.
  intros L. pose proof b_bound as B. destruct y_ok as [Fy Vy]. assert (C : 2 ^ 31 + 1 <= Zfloor b). { apply Zfloor_lub. rewrite plus_IZR. destruct cst as (_ & _ & _ & _ & ->). lra. }
  replace (Zfloor b <=? 2 ^ 31) with false in Vy by lia. unfold rounds_val. rewrite away_x, opp_IZR, Vy. pose proof (Zfloor_lb (2147483648 + e + / 2)) as Ql. pose proof (Zfloor_ub (2147483648 + e + / 2)) as Qu. split.
  - intros [_ V]. lra.
  - intros H. split; auto. assert (Zfloor (2147483648 + e + / 2) = 4294967296) as ->; [|lra]. apply Zfloor_imp. change (IZR (4294967296 + 1)) with 4294967297%R. lra.
Qed.
End S.

(** round without SSE4.1, every finite number: right exactly for the numbers whose integer part fits int32 and that are not halfway
    between two integers, for the numbers that round to -2^32 (by accident: both summands saturate), and for the doubles -2^31 - 1 and -2^31 - 3/2. *)
Theorem C37_round_sse2_decided : forall nn X x, xty_ok X -> is_int (xT X) = false -> shaped X x -> is256 X = false -> sse41 (xc X) = false ->
  each1 X x (x_round X nn x) (fun x y => isfin (xf X) x = true -> let v := val (xf X) x in
    (rounds_val (xf X) away x y <->
      (fits 32 (Ztrunc v) /\ ~ half_int v) \/ (IZR (- 2 ^ 32) - / 2 < v <= IZR (- 2 ^ 32) + / 2)%R \/
      (xf X = F64 /\ (v = IZR (- 2 ^ 31 - 1) \/ v = IZR (- 2 ^ 31 - 1) - / 2)%R))).
Proof.
  intros nn X x HX HF Hx E2 E4. destruct (@C37_round_sse2_partial nn X x HX HF Hx E2 E4) as (y & E & S1 & P1).
  destruct (@C37_round_sse2_range_refuted nn X x HX HF Hx E2 E4) as (y' & E' & _ & P2). rewrite E in E'. injection E' as <-.
  assert (P3 : each1 X x (x_round X nn x) (fun x y => isfin (xf X) x = true -> forall e, val (xf X) x = (- 2147483648 - e)%R -> (1 <= e <= 2147483648 + / 2)%R ->
    (rounds_val (xf X) away x y <-> (xf X = F64 /\ (e = 1 \/ e = 3 / 2)%R) \/ (2147483648 - / 2 <= e < 2147483648 + / 2)%R))).
  { apply x_round_each; auto. intros v Hv Fv e Ve He. unfold round1. cbv zeta. rewrite E2, E4, (xw_fw HX HF).
    assert (T : tx1 X nn v = fof_int (xf X) (- 2 ^ 31)).
    { unfold tx1. rewrite fto_int_bad; auto. right. cbn [round_mode]. rewrite Ve. replace (- 2147483648 - e)%R with (- (2147483648 + e))%R by ring. rewrite Ztrunc_opp, Ztrunc_floor by lra.
      assert (2147483649 <= Zfloor (2147483648 + e)) by (apply Zfloor_lub; lra). unfold fits. cbn. lia. }
    rewrite T. unfold tx1. destruct (Rle_lt_dec (2147483648 - / 2) e) as [L|L].
    - rewrite (@y_low nn (xf X) v Hv Fv e Ve He L). split; [intros H; right; lra|intros [[_ [H|H]]|H]; lra].
    - assert (D : xf X = F32 \/ xf X = F64) by (destruct (xf X); auto). destruct D as [Ef|Ef].
      + split; [intros H; exfalso; exact (@y_flt nn (xf X) v Hv Fv e Ve He Ef L H)|intros [[H _]|H]; [congruence|lra]].
      + rewrite (@y_dbl nn (xf X) v Hv Fv e Ve He Ef L). split; [intros H; left; auto|intros [[_ H]|H]; [auto|lra]]. }
  destruct P3 as (y' & E' & _ & P3). rewrite E in E'. injection E' as <-.
  exists y. split; auto. split; auto. intros i a Hi. destruct (P1 i a Hi) as (z & Hz & Q1). destruct (P2 i a Hi) as (z2 & Hz2 & Q2). destruct (P3 i a Hi) as (z3 & Hz3 & Q3).
  rewrite Hz in Hz2, Hz3. injection Hz2 as <-. injection Hz3 as <-. exists z. split; auto. intros Fv v. specialize (Q1 Fv). specialize (Q2 Fv). specialize (Q3 Fv). fold v in Q1, Q2, Q3. clear - Q1 Q2 Q3.
  destruct cst as (_ & _ & _ & C32 & _). assert (C33 : IZR (- 2 ^ 31 - 1) = (-2147483649)%R) by reflexivity. rewrite C32, C33 in *.
  assert (D : fits 32 (Ztrunc v) \/ ~ fits 32 (Ztrunc v)) by (unfold fits; lia). destruct D as [R|R].
  - assert (U : (-2147483649 < v)%R). { apply Rnot_le_lt. intros L. unfold fits in R. apply Ztrunc_le in L. change (-2147483649)%R with (IZR (-2147483649)) in L. rewrite Ztrunc_IZR in L. cbn in R. lia. }
    specialize (Q1 R). destruct Q1 as [A B]. split; [intros H; left; split; auto; intros K; now apply (B K)|].
    intros [[_ H]|[H|[_ [H|H]]]]; [auto|lra..].
  - specialize (Q2 R). destruct Q2 as [_ Q2]. assert (U : (2147483648 <= v \/ v <= -2147483649)%R).
    { destruct (Rle_lt_dec 0 v) as [L|L].
      - left. apply Rnot_lt_le. intros H. apply R. unfold fits. rewrite Ztrunc_floor by auto. assert (0 <= Zfloor v) by now apply Zfloor_lub. pose proof (Zfloor_lb v). assert (Zfloor v < 2 ^ 31) by (apply lt_IZR; change (IZR (2 ^ 31)) with 2147483648%R; lra). lia.
      - right. apply Rnot_lt_le. intros H. apply R. unfold fits. rewrite Ztrunc_ceil by lra. assert (Zceil v <= 0) by (apply Zceil_glb; lra). pose proof (Zceil_ub v). assert (-2147483649 < Zceil v) by (apply lt_IZR; lra). cbn. lia. }
    destruct U as [U|U]. { split; [intros H; exfalso; apply Q2; auto; lra|intros [[H _]|[H|[_ [H|H]]]]; [contradiction|lra..]]. }
    destruct (Rlt_le_dec v (-4294967296 - / 2)) as [L|L]. { split; [intros H; exfalso; apply Q2; auto|intros [[H _]|[H|[_ [H|H]]]]; [contradiction|lra..]]. }
    rewrite (Q3 (- 2147483648 - v)%R) by lra. split.
    + intros [[H1 [H2|H2]]|H]; [right; right; split; auto; left; lra|right; right; split; auto; right; lra|right; left; lra].
    + intros [[H _]|[H|[H1 [H2|H2]]]]; [contradiction|right; lra|left; split; auto; left; lra|left; split; auto; right; lra].
Qed.
Print Assumptions C37_round_sse2_decided.
(** -2^31 - 1 and -2^31 - 3/2 (to -2^31 - 2) right, -2^31 - 5/4 wrong (-2^31 - 2), -2^32 right *)
Example C37_round_sse2_decided_case : let X := {| xc := sse2; xT := {| esz := 8; ek := KFloat |}; xvs := 16; xN := 4 |} in xty_ok X /\
  x_round X nans0 [[0xc1e0000000200000; 0xc1e0000000300000]; [0xc1e0000000280000; 0xc1f0000000000000]]%Z = Ok [[0xc1e0000000200000; 0xc1e0000000400000]; [0xc1e0000000400000; 0xc1f0000000000000]]%Z.
Proof. split; [xok|vm_compute; reflexivity]. Qed.
