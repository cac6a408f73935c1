(** Proofs about the rounding functions: real-number part. *)
From Coq Require Import ZifyBool ZifyNat Reals Lra.
From Flocq Require Import Core IEEE754.BinarySingleNaN IEEE754.Binary.
From Verif Require Import Base Cxx Spec GenericProofs X86Vec X86 X86Lemmas X86Proofs X86Ops X86Shift Fp FpLemmas FpOps FMath FMathProofs FLane FFields FManip FManipLanes FScalbn Cvt CvtProofs LogbProofs Round.
Set Implicit Arguments.
Local Open Scope Z_scope.

Section R.
Context {f : fmt}.
Local Notation W := (fw f).
Local Notation M := (mw f).
Local Notation p := (prec f).
Local Notation fmt_ := (generic_format radix2 (SpecFloat.fexp (prec f) (emax f))).
Local Notation h := (bpow radix2 (-1) - bpow radix2 (- (p + 1)))%R.

Lemma p_M : p = M + 1. Proof. reflexivity. Qed.
Lemma p_range : 24 <= p <= 53 /\ emin f < - p - 60 /\ p < emax f - 40.
Proof. destruct f; unfold prec, emin, emax, prec; cbn; lia. Qed.
Lemma rnd_mono a b : (a <= b)%R -> (rnd f a <= rnd f b)%R.
Proof. intros H. apply round_le; auto. apply fexp_correct. apply Hprec. apply valid_rnd_N. Qed.
Lemma rnd_opp a : rnd f (- a) = (- rnd f a)%R.
Proof. apply round_NE_opp. Qed.
Lemma rnd_near a g : fmt_ g -> (Rabs (rnd f a - a) <= Rabs (g - a))%R.
Proof.
  intros G. destruct (@round_N_pt radix2 (SpecFloat.fexp (prec f) (emax f)) (fexp_correct _ _ (Hprec f)) (fun x => negb (Z.even x)) a) as [_ N]. exact (N g G).
Qed.
(** numbers of the format are multiples of the unit of their binade *)
Lemma fmt_mult v e : fmt_ v -> (bpow radix2 e <= v)%R -> exists m, v = (IZR m * bpow radix2 (e - M))%R.
Proof.
  intros G H. assert (P : (0 < v)%R) by (pose proof (bpow_gt_0 radix2 e); lra).
  assert (Mg : e + 1 <= mag radix2 v). { apply mag_ge_bpow. replace (e + 1 - 1) with e by lia. rewrite Rabs_pos_eq; lra. }
  set (c := cexp radix2 (SpecFloat.fexp p (emax f)) v). assert (Hc : e - M <= c) by (unfold c, cexp, SpecFloat.fexp; rewrite p_M; lia).
  unfold generic_format, F2R in G. cbn [Fnum Fexp] in G. fold c in G. set (m := Ztrunc _) in G. exists (m * 2 ^ (c - (e - M))).
  rewrite mult_IZR. change (2 ^ (c - (e - M))) with (Zpower radix2 (c - (e - M))). rewrite IZR_Zpower by lia. rewrite Rmult_assoc, <- bpow_plus. replace (c - (e - M) + (e - M)) with c by lia. exact G.
Qed.
Lemma fmt_ok m e : Z.abs m <= 2 ^ p -> emin f <= e -> fmt_ (IZR m * bpow radix2 e)%R.
Proof.
  intros Hm He. destruct (Z.eq_dec (Z.abs m) (2 ^ p)) as [E|E].
  - assert (Q : fmt_ (bpow radix2 (p + e))). { apply generic_format_bpow. unfold SpecFloat.fexp, SpecFloat.emin, emin in *. pose proof p_range. lia. }
    rewrite bpow_plus, <- IZR_Zpower in Q by (pose proof p_range; lia). change (Zpower radix2 p) with (2 ^ p) in Q.
    destruct (Z.abs_spec m) as [[_ A]|[_ A]]; [replace m with (2 ^ p) by lia; auto|]. replace m with (- 2 ^ p) by lia. rewrite opp_IZR, Ropp_mult_distr_l_reverse. apply generic_format_opp. exact Q.
  - apply fmt_F2R; auto. lia.
Qed.
Lemma fmt_int n : Z.abs n <= 2 ^ p -> fmt_ (IZR n).
Proof. intros H. replace (IZR n) with (IZR n * bpow radix2 0)%R by (cbn; ring). apply fmt_ok; auto. pose proof p_range. lia. Qed.
Lemma int_or_small v : fmt_ v -> (0 <= v)%R -> (exists n, v = IZR n) \/ (v < bpow radix2 M)%R.
Proof.
  intros G H. destruct (Rlt_le_dec v (bpow radix2 M)) as [L|L]; auto. left. destruct (@fmt_mult v _ G L) as [m E]. exists m. rewrite E, Z.sub_diag. cbn. ring.
Qed.
Lemma half_pred v : fmt_ v -> (v < / 2)%R -> (v <= h)%R.
Proof.
  intros G H. change (bpow radix2 (-1)) with (/ 2)%R. pose proof (bpow_gt_0 radix2 (- (p + 1))) as P.
  assert (Q : (bpow radix2 (- (p + 1)) <= bpow radix2 (-2))%R) by (apply bpow_le; pose proof p_range; lia). change (bpow radix2 (-2)) with (/ 4)%R in Q.
  destruct (Rlt_le_dec v (/ 4)) as [L|L]; [lra|]. change (/ 4)%R with (bpow radix2 (-2)) in L. destruct (@fmt_mult v _ G L) as [m E].
  replace (-2 - M) with (- (p + 1)) in E by (rewrite p_M; lia). rewrite E in H |- *.
  assert (B : (/ 2 = IZR (2 ^ p) * bpow radix2 (- (p + 1)))%R).
  { change (2 ^ p) with (Zpower radix2 p). rewrite IZR_Zpower by (pose proof p_range; lia). rewrite <- bpow_plus. replace (p + - (p + 1)) with (-1) by lia. reflexivity. }
  rewrite B in H |- *. apply Rmult_lt_reg_r in H; auto. apply lt_IZR in H. assert (IZR m <= IZR (2 ^ p) - 1)%R. { rewrite <- minus_IZR. apply IZR_le. lia. }
  nra.
Qed.
(** adding the predecessor of 1/2 and truncating *)
Lemma away_core v : fmt_ v -> (0 <= v)%R -> let n := Zfloor (v + / 2) in (IZR n <= rnd f (v + h) < IZR n + 1)%R.
Proof.
  intros G H n. assert (N1 := Zfloor_lb (v + / 2)). assert (N2 := Zfloor_ub (v + / 2)). fold n in N1, N2. pose proof p_range as PR. pose proof p_M as PM.
  change (bpow radix2 (-1)) with (/ 2)%R. set (t := bpow radix2 (- (p + 1))).
  assert (P : (0 < t)%R) by apply bpow_gt_0. assert (Q : (t <= bpow radix2 (-20))%R) by (apply bpow_le; lia). change (bpow radix2 (-20)) with (/ 1048576)%R in Q.
  set (y := (v + (/ 2 - t))%R).
  assert (Nn : 0 <= n). { apply Zfloor_lub. cbn. lra. } assert (IZR n >= 0)%R by (apply Rle_ge, IZR_le; lia).
  assert (CI : (exists k, v = IZR k) -> (IZR n <= rnd f y < IZR n + 1)%R).
  { intros [k E]. assert (n = k). { unfold n. rewrite E. apply Zfloor_imp. rewrite plus_IZR. lra. } subst k. rewrite <- E in *. split.
    - rewrite <- (rnd_id G) at 1. apply rnd_mono. unfold y. lra.
    - pose proof (rnd_near y G) as R. assert (Hy : y = (v + (/ 2 - t))%R) by reflexivity. replace (v - y)%R with (- (/ 2 - t))%R in R by (rewrite Hy; ring). rewrite Rabs_Ropp, (Rabs_pos_eq (/ 2 - t)) in R by lra.
      apply Rabs_le_inv in R. clearbody y. lra. }
  destruct (int_or_small G H) as [I|S]; auto. destruct (Req_dec v (IZR n)) as [I|I]; [apply CI; eauto|]. clear CI.
  assert (Nb : n <= 2 ^ M).
  { apply le_IZR. change (2 ^ M) with (Zpower radix2 M). destruct (Z_le_gt_dec n (2 ^ M)) as [B|B]; [apply IZR_le; exact B|].
    exfalso. assert (IZR (2 ^ M) + 1 <= IZR n)%R by (rewrite <- plus_IZR; apply IZR_le; lia). change (2 ^ M) with (Zpower radix2 M) in H1. rewrite IZR_Zpower in H1 by (destruct f; cbn; lia). lra. }
  assert (P2 : 2 ^ M < 2 ^ p) by (apply Z.pow_lt_mono_r; destruct f; cbn; lia).
  assert (Gn : fmt_ (IZR n)) by (apply fmt_int; lia).
  split.
  - destruct (Z.eq_dec n 0) as [-> | N0]. { cbn. rewrite <- (@rnd0 f). apply rnd_mono. unfold y. lra. }
    apply Rle_trans with (rnd f (IZR n - t)). 2:{ apply rnd_mono. unfold y. lra. }
    destruct (Z.eq_dec n 1) as [-> | N1'].
    + rewrite (@rnd_at f (1 - t) (- p)).
      * assert (E : ((1 - t) * bpow radix2 (- - p) = IZR (2 ^ p) - / 2)%R).
        { rewrite Z.opp_involutive, Rmult_minus_distr_r. unfold t. rewrite <- bpow_plus. replace (- (p + 1) + p) with (-1) by lia. change (bpow radix2 (-1)) with (/ 2)%R.
          change (2 ^ p) with (Zpower radix2 p). rewrite IZR_Zpower by lia. ring. }
        rewrite E. assert (ZnearestE (IZR (2 ^ p) - / 2) = 2 ^ p) as ->.
        { replace (IZR (2 ^ p) - / 2)%R with (/ 2 + IZR (2 * (2 ^ (p - 1) - 1)) + 1)%R.
          - replace (/ 2 + IZR (2 * (2 ^ (p - 1) - 1)) + 1)%R with (3 / 2 + IZR (2 * (2 ^ (p - 1) - 1)))%R by lra. rewrite near_even.
            assert (ZnearestE (3 / 2) = 2) as ->. { unfold Znearest. assert (Zfloor (3 / 2) = 1) as -> by (apply Zfloor_imp; cbn; lra). assert (Zceil (3 / 2) = 2) as -> by (apply Zceil_imp; cbn; lra). rewrite Rcompare_Eq by lra. reflexivity. }
            replace p with (p - 1 + 1) at 2 by lia. rewrite Z.pow_add_r by lia. lia.
          - rewrite mult_IZR, minus_IZR. assert (E2 : IZR (2 ^ p) = (2 * IZR (2 ^ (p - 1)))%R). { rewrite <- mult_IZR. f_equal. replace p with (p - 1 + 1) at 1 by lia. rewrite Z.pow_add_r by lia. lia. } rewrite E2. lra. }
        change (2 ^ p) with (Zpower radix2 p). rewrite IZR_Zpower by lia. rewrite <- bpow_plus. replace (p + - p) with 0 by lia. cbn. lra.
      * lia.
      * rewrite p_M. replace (M + - (M + 1)) with (-1) by lia. replace (M + 1 + - (M + 1)) with 0 by lia. change (bpow radix2 (-1)) with (/ 2)%R. cbn [bpow]. lra.
    + assert (2 <= n) by lia. assert (IZR n >= 2)%R by (apply Rle_ge, IZR_le; lia). set (g := rnd f (IZR n - t)).
      destruct (Rle_lt_dec (IZR n) g) as [B|B]; auto. exfalso.
      pose proof (rnd_near (IZR n - t) Gn) as R. fold g in R. replace (IZR n - (IZR n - t))%R with t in R by ring. rewrite (Rabs_pos_eq t) in R by lra. apply Rabs_le_inv in R.
      assert (Gg : fmt_ g) by (apply generic_format_round; [apply fexp_correct, Hprec|apply valid_rnd_N]).
      destruct (@fmt_mult g 0 Gg) as [m E]; [cbn; lra|]. replace (0 - M) with (- M) in E by lia. set (u := bpow radix2 (- M)) in *.
      assert (Eu : (u = 4 * t)%R). { unfold u, t. rewrite p_M. replace (- M) with (2 + - (M + 1 + 1)) by lia. rewrite bpow_plus. reflexivity. }
      assert (En : (IZR n = IZR (n * 2 ^ M) * u)%R). { rewrite mult_IZR. change (2 ^ M) with (Zpower radix2 M). rewrite IZR_Zpower by (destruct f; cbn; lia). unfold u. rewrite Rmult_assoc, <- bpow_plus, Z.add_opp_diag_r. cbn. ring. }
      rewrite E, En in B. assert (0 < u)%R by lra. apply Rmult_lt_reg_r in B; auto. apply lt_IZR in B. assert (IZR m <= IZR (n * 2 ^ M) - 1)%R by (rewrite <- minus_IZR; apply IZR_le; lia).
      assert (g <= IZR n - u)%R by (rewrite E, En; nra). lra.
  - destruct (Rlt_le_dec v (IZR n)) as [L|L].
    + pose proof (rnd_near y Gn) as R. apply Rabs_le_inv in R. assert (Y : (y < IZR n + / 2)%R) by (unfold y; lra).
      destruct (Rle_lt_dec (IZR n) y) as [B|B]; [rewrite Rabs_left1 in R by lra | rewrite Rabs_pos_eq in R by lra]; lra.
    + assert (L' : (IZR n < v)%R) by lra. destruct (Z.eq_dec n 0) as [E0|N0].
      * rewrite E0 in *. cbn in *. assert (V : (v <= h)%R) by (apply half_pred; auto; lra). change (bpow radix2 (-1)) with (/ 2)%R in V. fold t in V.
        assert (K : fmt_ (1 - 2 * t)%R).
        { replace (1 - 2 * t)%R with (IZR (2 ^ p - 1) * bpow radix2 (- p))%R. { apply fmt_ok; [|lia]. assert (0 < 2 ^ p) by (apply Z.pow_pos_nonneg; lia). lia. }
          rewrite minus_IZR. change (2 ^ p) with (Zpower radix2 p). rewrite IZR_Zpower by lia. rewrite Rmult_minus_distr_r, <- bpow_plus, Z.add_opp_diag_r. cbn [bpow]. unfold t.
          replace (- p) with (1 + - (p + 1)) by lia. rewrite bpow_plus. change (bpow radix2 1) with 2%R. ring. }
        apply Rle_lt_trans with (1 - 2 * t)%R; [|lra]. rewrite <- (rnd_id K). apply rnd_mono. unfold y. lra.
      * assert (1 <= n) by lia. set (k := Z.log2 n). pose proof (Z.log2_spec n ltac:(lia)) as [K1 K2]. fold k in K1, K2. pose proof (Z.log2_nonneg n) as K0. fold k in K0.
        assert (B1 : (bpow radix2 k <= IZR n)%R). { rewrite <- IZR_Zpower by lia. apply IZR_le. exact K1. }
        assert (B2 : (IZR n + 1 <= bpow radix2 (k + 1))%R). { rewrite <- IZR_Zpower, <- plus_IZR by lia. apply IZR_le. unfold Z.succ in K2. change (Zpower radix2 (k + 1)) with (2 ^ (k + 1)). lia. }
        destruct (@fmt_mult v k G ltac:(lra)) as [m E].
        assert (Km : k < M). { apply (lt_bpow radix2). lra. }
        assert (Hk : (/ 2 = IZR (2 ^ (M - 1 - k)) * bpow radix2 (k - M))%R).
        { change (2 ^ (M - 1 - k)) with (Zpower radix2 (M - 1 - k)). rewrite IZR_Zpower by lia. rewrite <- bpow_plus. replace (M - 1 - k + (k - M)) with (-1) by lia. reflexivity. }
        assert (K : fmt_ (v + / 2)%R).
        { rewrite E, Hk, <- Rmult_plus_distr_r, <- plus_IZR. apply fmt_ok; [|lia]. 
          assert (V : (IZR (m + 2 ^ (M - 1 - k)) * bpow radix2 (k - M) <= bpow radix2 (k + 1))%R). { rewrite plus_IZR, Rmult_plus_distr_r, <- E, <- Hk. lra. }
          assert (V0 : (0 <= IZR (m + 2 ^ (M - 1 - k)) * bpow radix2 (k - M))%R). { rewrite plus_IZR, Rmult_plus_distr_r, <- E, <- Hk. lra. }
          replace (bpow radix2 (k + 1)) with (IZR (2 ^ p) * bpow radix2 (k - M))%R in V.
          2:{ change (2 ^ p) with (Zpower radix2 p). rewrite IZR_Zpower by lia. rewrite <- bpow_plus. f_equal. rewrite p_M. lia. }
          pose proof (bpow_gt_0 radix2 (k - M)) as Pk. apply Rmult_le_reg_r in V; auto. apply le_IZR in V.
          assert (0 <= m + 2 ^ (M - 1 - k)). { apply le_IZR. apply Rmult_le_reg_r with (bpow radix2 (k - M)); auto. rewrite Rmult_0_l. exact V0. } lia. }
        apply Rle_lt_trans with (v + / 2)%R; [|lra]. rewrite <- (rnd_id K). apply rnd_mono. unfold y. lra.
Qed.
End R.
