(** hypot(x, 0) of doubles through the split squares is exactly |x| (C43). *)
From Coq Require Import ZifyBool ZifyNat Reals Lra.
From Flocq Require Import Core Relative Mult_error IEEE754.BinarySingleNaN IEEE754.Binary.
From Verif Require Import Base Cxx Spec X86Vec X86 X86Lemmas X86Proofs X86Ops X86Shift Fp FpLemmas FpOps FMath FMathProofs FLane FFields FManip FManipLanes PropManip RoundSem FArith PropArith FCvt Hypot HypotProofs HypotSem PropHypot PropIeee FErr ArcKern HypNum HypSplit HypAcc HypDbl.
Set Implicit Arguments.
Open Scope Z_scope.
Local Notation bp := (bpow radix2).
Local Notation fx := (SpecFloat.fexp 53 1024).
Local Notation fl := (FLT_exp (-1074) 53).

Lemma fmt_int n e : (Rabs (IZR n) < 9007199254740992)%R -> -1074 <= e -> generic_format radix2 fx (IZR n * bp e).
Proof.
  intros Hn He. change fx with fl. apply generic_format_FLT. exists (Float radix2 n e); auto. cbn [Fnum]. apply lt_IZR. rewrite abs_IZR. exact Hn.
Qed.
Lemma mult_of y e : generic_format radix2 fx y -> (bp e <= Rabs y)%R -> exists n, y = (IZR n * bp (e - 52))%R.
Proof.
  intros G H. change fx with fl in G. assert (M : e < mag radix2 y) by now apply mag_gt_bpow. red in G. set (k := cexp radix2 fl y) in *. assert (K : e - 52 <= k) by (unfold k, cexp, FLT_exp; lia).
  exists (Ztrunc (scaled_mantissa radix2 fl y) * 2 ^ (k - (e - 52))). rewrite mult_IZR. change 2 with (radix_val radix2) at 1. rewrite IZR_Zpower by lia. rewrite Rmult_assoc, <- bpow_plus. replace (k - (e - 52) + (e - 52)) with k by lia. exact G.
Qed.
Lemma rnd_normal s : (bp (-1022) <= Rabs s)%R -> (Rabs (rnd F64 s - s) <= u53 * Rabs s)%R.
Proof.
  intros H. assert (Pp : (0 < 53)) by lia. pose proof (relative_error_N_FLT radix2 (-1074) 53 Pp (fun x => negb (Z.even x)) s H) as E.
  change (/ 2 * bp (-(53) + 1))%R with (/ 2 * bp (1 + -53))%R in E. rewrite bpow_plus in E. change (bp 1) with 2%R in E. change (rnd F64 s) with (round radix2 fl (Znearest (fun x => negb (Z.even x))) s). rewrite <- u53_bp. change (bp (- prec F64)) with (bp (-53)). lra.
Qed.
Lemma bin v : (0 < v)%R -> exists e, (bp e <= v < bp (e + 1))%R.
Proof.
  intros H. exists (mag radix2 v - 1). destruct (mag radix2 v) as [m Hm]. cbn. specialize (Hm ltac:(lra)). rewrite Rabs_pos_eq in Hm by lra. replace (m - 1 + 1) with m by lia. exact Hm.
Qed.
Lemma bp_lt_inv i j : (bp i < bp j)%R -> i < j. Proof. apply lt_bpow. Qed.

(** the high half has 26 bits *)
Section H.
Context (v : R) (Fv : generic_format radix2 fx v) (Hv : (bp (-450) <= v <= bp 510)%R).
Lemma high_half xc d e : xc = rnd F64 (134217729 * v) -> d = rnd F64 (v - xc) -> (bp e <= v < bp (e + 1))%R ->
  exists n, (d + xc = IZR n * bp (e - 25) /\ Rabs (IZR n) <= 67108868 /\ Rabs (d + xc - v) <= / 33000000 * v)%R.
Proof.
  intros Exc Ed He. assert (Pe : (0 < bp e)%R) by apply bpow_gt_0. assert (Lo : (bp (-450) <= v)%R) by lra.
  assert (E1 : -451 <= e). { assert (-450 < e + 1) by (apply bp_lt_inv; lra). lia. }
  assert (V0 : (0 < v)%R) by lra. assert (N0 : (bp (-1022) <= bp (-451))%R) by (apply bpow_le; lia). assert (N1 : (bp (-451) <= bp e)%R) by (apply bpow_le; lia).
  assert (B27 : (bp (e + 27) = 134217728 * bp e)%R). { rewrite Z.add_comm, bpow_plus. reflexivity. }
  assert (B1 : (bp (e + 1) = 2 * bp e)%R). { rewrite Z.add_comm, bpow_plus. reflexivity. }
  pose proof (@rnd_normal (134217729 * v)) as R1. rewrite (Rabs_pos_eq (134217729 * v)) in R1 by lra. specialize (R1 ltac:(lra)). rewrite <- Exc in R1. apply Rabs_imp in R1.
  assert (C1 : (bp (e + 27) <= xc)%R). { unfold u53 in R1. rewrite B27. lra. }
  (* v is bp e or at least one unit above *)
  assert (D : (v = bp e \/ bp e * (1 + / 4503599627370496) <= v)%R).
  { destruct (@mult_of v e Fv) as [n En]. { rewrite Rabs_pos_eq; lra. } assert (Q : (bp (e - 52) = bp e * / 4503599627370496)%R). { unfold Z.sub. rewrite bpow_plus. reflexivity. }
    assert (n <= 4503599627370496 \/ 4503599627370497 <= n) as [L|L] by lia; apply IZR_le in L; rewrite En, Q in *; [left|right]; nra. }
  assert (P1 : (bp (e + 27) <= xc - v)%R).
  { destruct D as [E|E].
    - assert (X : xc = (134217729 * v)%R). { rewrite Exc. apply rnd_id. rewrite E. apply (@fmt_int 134217729 e); [rewrite Rabs_pos_eq; lra|lia]. } rewrite X, B27, E. lra.
    - rewrite B27. unfold u53 in R1. lra. }
  assert (P2 : (xc - v <= 134217730 * v)%R) by (unfold u53 in R1; lra).
  pose proof (@rnd_normal (v - xc)) as R2. assert (A : Rabs (v - xc) = (xc - v)%R) by (rewrite Rabs_left1; lra). rewrite A in R2. specialize (R2 ltac:(lra)). rewrite <- Ed in R2. apply Rabs_imp in R2.
  assert (D1 : (bp (e + 27) <= Rabs d)%R).
  { rewrite Ed. unfold rnd. apply abs_round_ge_generic; try typeclasses eauto. { replace (bp (e + 27)) with (1 * bp (e + 27))%R by ring. apply (@fmt_int 1); [rewrite Rabs_R1; lra|lia]. } rewrite A. exact P1. }
  assert (Gd : generic_format radix2 fx d) by (rewrite Ed; apply generic_format_round; typeclasses eauto).
  assert (Gc : generic_format radix2 fx xc) by (rewrite Exc; apply generic_format_round; typeclasses eauto).
  destruct (@mult_of d (e + 27) Gd D1) as [i Ei]. destruct (@mult_of xc (e + 27) Gc) as [j Ej]. { rewrite Rabs_pos_eq; lra. }
  replace (e + 27 - 52) with (e - 25) in * by lia. exists (i + j). assert (Q : (bp e = 33554432 * bp (e - 25))%R). { change 33554432%R with (bp 25). rewrite <- bpow_plus. f_equal. lia. }
  assert (K : (Rabs (d + xc - v) <= / 33000000 * v)%R). { apply Rabs_le. unfold u53 in R2. lra. }
  split; [|split; auto].
  - rewrite plus_IZR, Rmult_plus_distr_r. lra.
  - assert (K' := Rabs_imp _ _ K). assert (Z : (d + xc = IZR (i + j) * bp (e - 25))%R) by (rewrite plus_IZR, Rmult_plus_distr_r; lra). assert (P25 : (0 < bp (e - 25))%R) by apply bpow_gt_0.
    rewrite Z, B1, Q in *. apply Rabs_le. split; apply Rmult_le_reg_r with (bp (e - 25)); auto; lra.
Qed.
End H.

(** the correction is accurate to 2^-20 units in the last place *)
Lemma corr_near p h s1 z2 s2 z3 s3 : (Rabs (1 - p) <= / 33000000)%R -> (Rabs (h - 1) <= u53 + e150)%R -> near s1 (p * p - h) -> near z2 (p * (2 * (1 - p))) -> near s2 (z2 + s1) -> near z3 ((1 - p) * (1 - p)) -> near s3 (z3 + s2) ->
  (Rabs (h + s3 - 1) <= / 1000 * u53)%R.
Proof.
  unfold near. intros Hp Hh H1 H2 H3 H4 H5. set (d := (1 - p)%R) in *. assert (Ep : p = (1 - d)%R) by (unfold d; ring). clearbody d. subst p. apply Rabs_imp in Hp. apply Rabs_imp in Hh.
  assert (D2 : (0 <= d * d <= / 1000000000000000)%R). { split; [nra|]. apply Rle_trans with (/ 33000000 * / 33000000)%R; [|lra]. assert (Rabs d * Rabs d <= / 33000000 * / 33000000)%R by (apply Rmult_le_compat; try apply Rabs_pos; apply Rabs_le; lra). rewrite <- Rabs_mult in H. pose proof (Rle_abs (d * d)). lra. }
  replace ((1 - d) * (1 - d) - h)%R with (1 - h - 2 * d + d * d)%R in H1 by ring. replace ((1 - d) * (2 * d))%R with (2 * d - 2 * (d * d))%R in H2 by ring. set (q := (d * d)%R) in *. clearbody q.
  assert (A1 : (Rabs (1 - h - 2 * d + q) <= / 10000000)%R) by (apply Rabs_le; unfold u53, e150 in *; lra).
  assert (A2 : (Rabs (2 * d - 2 * q) <= / 10000000)%R) by (apply Rabs_le; lra).
  assert (B1 : (Rabs (s1 - (1 - h - 2 * d + q)) <= / 9000000 * u53)%R) by (unfold u53, e150 in *; lra).
  assert (B2 : (Rabs (z2 - (2 * d - 2 * q)) <= / 9000000 * u53)%R) by (unfold u53, e150 in *; lra). apply Rabs_imp in B1, B2.
  assert (A3 : (Rabs (z2 + s1) <= / 10000000)%R) by (apply Rabs_le; unfold u53, e150 in *; lra).
  assert (B3 : (Rabs (s2 - (z2 + s1)) <= / 9000000 * u53)%R) by (unfold u53, e150 in *; lra). apply Rabs_imp in B3.
  assert (A4 : (Rabs q <= / 10000000)%R) by (apply Rabs_le; lra).
  assert (B4 : (Rabs (z3 - q) <= / 9000000 * u53)%R) by (unfold u53, e150 in *; lra). apply Rabs_imp in B4.
  assert (A5 : (Rabs (z3 + s2) <= / 10000000)%R) by (apply Rabs_le; unfold u53, e150 in *; lra).
  assert (B5 : (Rabs (s3 - (z3 + s2)) <= / 9000000 * u53)%R) by (unfold u53, e150 in *; lra). apply Rabs_imp in B5.
  apply Rabs_le. unfold u53 in *. lra.
Qed.

(** the square root of the rounded square is the number itself *)
Lemma sqrt_back v s : generic_format radix2 fx v -> (bp (-450) <= v <= bp 510)%R -> (Rabs (s - v * v) <= / 1000 * u53 * (v * v))%R -> rnd F64 (sqrt (rnd F64 s)) = v.
Proof.
  intros Fv Hv Hs. assert (P450 : (0 < bp (-450))%R) by apply bpow_gt_0. destruct (@bin v) as [e He]; [lra|]. assert (Pe : (0 < bp e)%R) by apply bpow_gt_0.
  assert (E1 : -451 <= e). { assert (-450 < e + 1) by (apply bp_lt_inv; lra). lia. }
  assert (B1 : (bp (e + 1) = 2 * bp e)%R). { rewrite Z.add_comm, bpow_plus. reflexivity. }
  assert (Q52 : (bp (e - 52) = bp e * (2 * u53))%R). { unfold Z.sub. rewrite bpow_plus. unfold u53. change (bp (- (52))) with (/ 4503599627370496)%R. lra. }
  assert (Q53 : (bp (e - 53) = bp e * u53)%R). { unfold Z.sub. rewrite bpow_plus. reflexivity. }
  (* v <= (2 - 2^-52) bp e *)
  assert (Vt : (v <= 2 * (1 - u53) * bp e)%R).
  { destruct (@mult_of v e Fv) as [n En]. { rewrite Rabs_pos_eq; lra. } assert (n <= 9007199254740991). { assert (n < 9007199254740992); [|lia]. apply lt_IZR. apply Rmult_lt_reg_r with (bp (e - 52)); [apply bpow_gt_0|]. rewrite <- En, Q52. unfold u53. lra. }
    apply IZR_le in H. rewrite En, Q52. unfold u53. nra. }
  assert (Uv : ulp radix2 fx v = bp (e - 52)). { rewrite ulp_neq_0 by lra. f_equal. unfold cexp. rewrite (mag_unique_pos radix2 v (e + 1)) by (replace (e + 1 - 1) with e by lia; exact He). unfold SpecFloat.fexp, SpecFloat.emin. lia. }
  set (B := bp e) in *. set (w := (v / B)%R). assert (Ew : v = (w * B)%R) by (unfold w; field; lra). assert (W1 : (1 <= w)%R) by (apply Rmult_le_reg_r with B; lra). assert (W2 : (w <= 2 * (1 - u53))%R) by (apply Rmult_le_reg_r with B; lra).
  set (g := (s / (B * B))%R). assert (BB : (0 < B * B)%R) by nra. assert (Es : s = (g * (B * B))%R) by (unfold g; field; lra).
  assert (Hg : (Rabs (g - w * w) <= / 1000 * u53 * (w * w))%R).
  { apply Rmult_le_reg_r with (B * B)%R; auto. rewrite <- (Rabs_pos_eq (B * B)) at 1 by lra. rewrite <- Rabs_mult. replace ((g - w * w) * (B * B))%R with (s - v * v)%R by (rewrite Es, Ew; ring). eapply Rle_trans; [exact Hs|]. right. rewrite Ew. ring. }
  apply Rabs_imp in Hg. assert (Q1 : (w <= w * w)%R) by nra. assert (Q2 : (w * w <= 4 - 7 * u53)%R). { apply Rle_trans with ((2 * (1 - u53)) * (2 * (1 - u53)))%R; [apply Rmult_le_compat; lra|unfold u53; lra]. }
  assert (Gp : (0 < g)%R) by (unfold u53 in *; lra). assert (G4 : (g < 4)%R) by (unfold u53 in *; lra). assert (Sp : (0 < s)%R) by (rewrite Es; nra).
  (* half an ulp of s *)
  assert (UL : forall c k, (g < c)%R -> c = bp k -> -1 <= k <= 3 -> (Rabs (rnd F64 s - s) <= c / 2 * u53 * (B * B))%R).
  { intros c k Hc Ec Hk. unfold rnd. eapply Rle_trans. { apply error_le_half_ulp. apply fexp_correct. reflexivity. }
    assert (U : (ulp radix2 fx s <= bp (2 * e + k - 53))%R). { rewrite ulp_neq_0 by lra. apply bpow_le. unfold cexp. assert (M : mag radix2 s <= 2 * e + k). { apply mag_le_bpow; [lra|]. rewrite Rabs_pos_eq by lra. rewrite Es. replace (bp (2 * e + k)) with (c * (B * B))%R; [apply Rmult_lt_compat_r; auto|]. rewrite Ec. unfold B. rewrite <- !bpow_plus. f_equal. lia. } change fx with fl. unfold FLT_exp. lia. }
    change (SpecFloat.fexp (prec F64) (emax F64)) with fx. assert (E : bp (2 * e + k - 53) = (c * u53 * (B * B))%R). { rewrite Ec. unfold B. change u53 with (bp (-53)). rewrite <- !bpow_plus. f_equal. lia. } rewrite E in U. lra. }
  set (V := rnd F64 s) in *. set (t := (V / (B * B))%R). assert (EV : V = (t * (B * B))%R) by (unfold t; field; lra).
  assert (UT : forall c k, (g < c)%R -> c = bp k -> -1 <= k <= 3 -> (- (c / 2 * u53) <= t - g <= c / 2 * u53)%R).
  { intros c k Hc Ec Hk. pose proof (UL c k Hc Ec Hk) as U. rewrite EV, Es in U. replace (t * (B * B) - g * (B * B))%R with ((t - g) * (B * B))%R in U by ring. rewrite Rabs_mult, (Rabs_pos_eq (B * B)) in U by lra. apply Rabs_imp. apply Rmult_le_reg_r with (B * B)%R; auto. }
  assert (SV : sqrt V = (sqrt t * B)%R). { rewrite EV, sqrt_mult_alt, sqrt_square by (try lra; pose proof (UT 4%R 2 G4 eq_refl ltac:(lia)); unfold u53 in *; lra). reflexivity. }
  assert (Tp : (0 < t)%R) by (pose proof (UT 4%R 2 G4 eq_refl ltac:(lia)); unfold u53 in *; lra).
  apply Rle_antisym.
  - (* upper side *)
    assert (T : (t < (w + u53) * (w + u53))%R).
    { replace ((w + u53) * (w + u53))%R with (w * w + 2 * u53 * w + u53 * u53)%R by ring. destruct (Rlt_or_le g 2) as [L|L].
      - pose proof (UT 2%R 1 L eq_refl ltac:(lia)). unfold u53 in *. lra.
      - pose proof (UT 4%R 2 G4 eq_refl ltac:(lia)). assert (14 / 10 <= w)%R by (assert (199 / 100 <= w * w)%R by (unfold u53 in *; lra); nra). unfold u53 in *. lra. }
    apply round_N_le_midp; try typeclasses eauto; auto. rewrite succ_eq_pos by lra. change (SpecFloat.fexp (prec F64) (emax F64)) with fx. rewrite Uv, Q52, SV, Ew.
    assert (L : (sqrt t < w + u53)%R). { rewrite <- (sqrt_square (w + u53)) by (unfold u53; lra). apply sqrt_lt_1_alt. lra. } fold B. assert (sqrt t * B < (w + u53) * B)%R by (apply Rmult_lt_compat_r; auto). lra.
  - apply round_N_ge_midp; try typeclasses eauto; auto. change (SpecFloat.fexp (prec F64) (emax F64)) with fx. rewrite pred_eq_pos by lra. unfold pred_pos. rewrite (mag_unique_pos radix2 v (e + 1)) by (replace (e + 1 - 1) with e by lia; exact He). replace (e + 1 - 1) with e by lia.
    destruct (Req_bool_spec v (bp e)) as [E|E].
    + replace (fx e) with (e - 53) by (unfold SpecFloat.fexp, SpecFloat.emin; lia). rewrite Q53. fold B in E |- *. assert (w = 1%R) as -> by (unfold w; rewrite E; field; lra). rewrite SV, E.
      assert (T : ((1 - u53 / 2) * (1 - u53 / 2) < t)%R). { destruct (Rlt_or_le g 1) as [L|L]; [pose proof (UT 1%R 0 L eq_refl ltac:(lia)); unfold u53 in *; lra|]. assert (B * B <= V)%R; [|assert (1 <= t)%R by (apply Rmult_le_reg_r with (B * B)%R; lra); unfold u53; lra].
        unfold V, rnd. apply round_ge_generic; try typeclasses eauto; [|rewrite Es; nra]. unfold B. rewrite <- bpow_plus. replace (bp (e + e)) with (1 * bp (e + e))%R by ring. apply (@fmt_int 1); [rewrite Rabs_R1; lra|lia]. }
      assert (L : (1 - u53 / 2 < sqrt t)%R). { rewrite <- (sqrt_square (1 - u53 / 2)) by (unfold u53; lra). apply sqrt_lt_1_alt. split; [unfold u53; lra|exact T]. } assert ((1 - u53 / 2) * B < sqrt t * B)%R by (apply Rmult_lt_compat_r; auto). lra.
    + assert (T : ((w - u53) * (w - u53) < t)%R).
      { replace ((w - u53) * (w - u53))%R with (w * w - 2 * u53 * w + u53 * u53)%R by ring. destruct (Rlt_or_le g 2) as [L|L].
        - pose proof (UT 2%R 1 L eq_refl ltac:(lia)). unfold u53 in *. lra.
        - pose proof (UT 4%R 2 G4 eq_refl ltac:(lia)). assert (14 / 10 <= w)%R by (assert (199 / 100 <= w * w)%R by (unfold u53 in *; lra); nra). unfold u53 in *. lra. }
      rewrite Uv, Q52, SV, Ew. assert (L : (w - u53 < sqrt t)%R). { rewrite <- (sqrt_square (w - u53)) by (unfold u53; lra). apply sqrt_lt_1_alt. split; [unfold u53 in *; nra|exact T]. } assert ((w - u53) * B < sqrt t * B)%R by (apply Rmult_lt_compat_r; auto). fold B. lra.
Qed.

(** *** The whole computation *)
Section Z.
Context {X : xty} (HX : xty_ok X) (HF : is_int (xT X) = false) (E8 : esz (xT X) = 8%nat) (nn : nans).
Local Notation good y := (word 64 y /\ isfin F64 y = true).
Lemma exact_op y s k : correct_round F64 s y -> generic_format radix2 fx s -> -1000 <= k < 1024 -> (Rabs s <= bp k)%R -> isfin F64 y = true /\ val F64 y = s.
Proof. intros C G Hk B. destruct (@cr_lt F64 _ _ k C ltac:(clear -Hk; cbn; lia) B) as [F V]. split; auto. rewrite V. apply rnd_id. exact G. Qed.
Lemma split_exact fm x v : good x -> val F64 x = v -> (bp (-450) <= v <= bp 510)%R ->
  good (fmul nn F64 x x) /\ good (split_l (X := X) nn fm x) /\ (Rabs (val F64 (fmul nn F64 x x) + val F64 (split_l (X := X) nn fm x) - v * v) <= / 1000 * u53 * (v * v))%R.
Proof.
  intros Gx Vx Hv. pose proof (v_pos Hv) as V0. assert (Fv : generic_format radix2 fx v) by (rewrite <- Vx; exact (@fmt_val F64 x)). unfold split_l. rewrite (Ef8 E8).
  assert (Gc : good 0x41a0000002000000) by (split; [unfold word; lia|reflexivity]). assert (Vc : val F64 0x41a0000002000000 = 134217729%R) by (unfold val; cbn; unfold F2R; cbn; lra).
  assert (G2 : good 0x4000000000000000) by (split; [unfold word; lia|reflexivity]). assert (V2 : val F64 0x4000000000000000 = 2%R) by (unfold val; cbn; unfold F2R; cbn; lra).
  destruct (@bin v V0) as [e He]. assert (E1 : -451 <= e <= 510). { split; [assert (-450 < e + 1) by (apply bp_lt_inv; lra); lia|assert (e < 511); [|lia]; apply bp_lt_inv; assert (bp 510 < bp 511)%R by (apply bpow_lt; lia); lra]. }
  assert (Pe : (0 < bp e)%R) by apply bpow_gt_0. assert (B1 : (bp (e + 1) = 2 * bp e)%R). { rewrite Z.add_comm, bpow_plus. reflexivity. }
  set (xc := fmul nn F64 x 0x41a0000002000000). pose proof (mulc nn Gx Gc) as C1. rewrite Vx, Vc in C1. rewrite Rmult_comm in C1. fold xc in C1.
  assert (Bv : (v <= bp (e + 1))%R) by lra.
  assert (Lb : forall c s, (0 <= c <= bp 30)%R -> (Rabs s <= c * v)%R -> (Rabs s <= bp (e + 31))%R). { intros c s Hc Hs. eapply Rle_trans; [exact Hs|]. replace (e + 31) with (30 + (e + 1)) by (clear; lia). rewrite bpow_plus. apply Rmult_le_compat; lra. }
  assert (T30 : bp 30 = 1073741824%R) by reflexivity.
  assert (K31 : emin F64 <= e + 31 < emax F64) by (clear -E1; cbn; lia).
  destruct (@cr_lt F64 _ _ (e + 31) C1 K31) as [Fxc Exc]. { apply (Lb 134217729%R); [lra|]. rewrite Rabs_pos_eq; lra. } assert (Gxc : good xc) by (split; [exact (@fmul_word nn F64 _ _)|exact Fxc]).
  assert (Nc : (Rabs (val F64 xc - 134217729 * v) <= v)%R). { rewrite Exc. eapply Rle_trans; [apply rnd_normal|]. { rewrite Rabs_pos_eq by lra. assert (bp (-1022) <= bp (-450))%R by (apply bpow_le; lia). lra. } rewrite Rabs_pos_eq by lra. unfold u53. lra. } apply Rabs_imp in Nc.
  set (d := fsub nn F64 x xc). pose proof (subc nn Gx Gxc) as C2. rewrite Vx in C2. fold d in C2.
  destruct (@cr_lt F64 _ _ (e + 31) C2 K31) as [Fd Ed]. { apply (Lb 134217730%R); [lra|]. apply Rabs_le. lra. } assert (Gd : good d) by (split; [exact (@fsub_word nn F64 _ _)|exact Fd]).
  destruct (@high_half v Fv Hv _ _ e Exc Ed He) as (n & En & Bn & Np).
  set (xh := fadd nn F64 d xc). pose proof (addc nn Gd Gxc) as C3. fold xh in C3. pose proof (Rabs_imp _ _ Np) as Np'.
  destruct (@exact_op xh _ (e + 31) C3) as [Fh Eh]. { rewrite En. apply fmt_int; [lra|clear -E1; lia]. } { clear -E1; lia. } { apply (Lb 2%R); [lra|]. apply Rabs_le. lra. } assert (Gh : good xh) by (split; [exact (@fadd_word nn F64 _ _)|exact Fh]).
  set (p := (val F64 xh / v)%R). assert (Ep : val F64 xh = (p * v)%R) by (unfold p; field; lra).
  assert (Hp : (Rabs (1 - p) <= / 33000000)%R). { apply Rmult_le_reg_r with v; auto. rewrite <- (Rabs_pos_eq v) at 1 by lra. rewrite <- Rabs_mult. replace ((1 - p) * v)%R with (- (val F64 d + val F64 xc - v))%R by (rewrite <- Eh, Ep; ring). rewrite Rabs_Ropp. exact Np. } pose proof (Rabs_imp _ _ Hp) as Hp'.
  destruct (@mult_of v e Fv) as [m Em]. { rewrite Rabs_pos_eq; lra. }
  assert (Q52 : (bp e = 4503599627370496 * bp (e - 52))%R). { change 4503599627370496%R with (bp 52). rewrite <- bpow_plus. f_equal. lia. }
  assert (Q25 : (bp (e - 25) = 134217728 * bp (e - 52))%R). { change 134217728%R with (bp 27). rewrite <- bpow_plus. f_equal. lia. }
  assert (P52 : (0 < bp (e - 52))%R) by apply bpow_gt_0.
  assert (El0 : (v - val F64 xh = IZR (m - n * 134217728) * bp (e - 52))%R). { rewrite minus_IZR, mult_IZR, Eh, En, Q25. rewrite Em at 1. ring. }
  assert (Bm : (Rabs (IZR (m - n * 134217728)) < 1000000000)%R). { apply Rmult_lt_reg_r with (bp (e - 52)); auto. rewrite <- (Rabs_pos_eq (bp (e - 52))) at 1 by lra. rewrite <- Rabs_mult, <- El0, Eh. rewrite Rabs_minus_sym. eapply Rle_lt_trans; [exact Np|]. lra. }
  set (xl := fsub nn F64 x xh). pose proof (subc nn Gx Gh) as C4. rewrite Vx in C4. fold xl in C4.
  destruct (@exact_op xl _ (e + 31) C4) as [Fl El]. { rewrite El0. apply fmt_int; [lra|clear -E1; lia]. } { clear -E1; lia. } { apply (Lb 2%R); [lra|]. rewrite Ep. replace (v - p * v)%R with ((1 - p) * v)%R by ring. rewrite Rabs_mult, (Rabs_pos_eq v) by lra. apply Rmult_le_compat_r; lra. } assert (Gl : good xl) by (split; [exact (@fsub_word nn F64 _ _)|exact Fl]).
  assert (El' : val F64 xl = ((1 - p) * v)%R) by (rewrite El, Ep; ring).
  set (t := fmul nn F64 xl 0x4000000000000000). pose proof (mulc nn Gl G2) as C6. rewrite V2 in C6. fold t in C6.
  destruct (@exact_op t _ (e + 31) C6) as [Ft Et]. { rewrite El, El0. rewrite Rmult_assoc, (Rmult_comm (bp (e - 52))), <- Rmult_assoc. rewrite <- mult_IZR. apply fmt_int; [rewrite mult_IZR, Rabs_mult, (Rabs_pos_eq 2) by lra; lra|clear -E1; lia]. } { clear -E1; lia. } { apply (Lb 2%R); [lra|]. rewrite El'. rewrite !Rabs_mult, (Rabs_pos_eq v), (Rabs_pos_eq 2) by lra. apply Rle_trans with (/ 33000000 * v * 2)%R; [apply Rmult_le_compat_r; [lra|apply Rmult_le_compat_r; lra]|lra]. } assert (Gt : good t) by (split; [exact (@fmul_word nn F64 _ _)|exact Ft]).
  assert (Et' : val F64 t = ((2 * (1 - p)) * v)%R) by (rewrite Et, El'; ring).
  set (h := fmul nn F64 x x). pose proof (mulc nn Gx Gx) as C5. rewrite Vx in C5. rewrite <- (Rmult_1_l (v * v)) in C5. destruct (@quad_op X HF E8 v Hv 1%R _ ltac:(rewrite Rabs_R1; lra) C5 (@fmul_word nn F64 _ _)) as (Ghh & hh & Ehh & Nhh). fold h in Ghh, Ehh.
  assert (Bh : (Rabs (hh - 1) <= u53 + e150)%R) by (unfold near in Nhh; rewrite Rabs_R1, Rmult_1_r in Nhh; exact Nhh). pose proof (Rabs_imp _ _ Bh) as Bh'.
  assert (Bpp : (0 <= p * p <= 101 / 100)%R) by nra.
  assert (A1 : (Rabs (p * p - hh) <= / 10)%R). { apply Rabs_le. assert (99 / 100 <= p * p)%R by nra. unfold u53, e150 in *. lra. }
  (* xh * xh - h is rounded once *)
  assert (L1 : good (fmsub1 (X := X) nn fm xh xh h) /\ exists s1, near s1 (p * p - hh) /\ val F64 (fmsub1 (X := X) nn fm xh xh h) = (s1 * (v * v))%R).
  { unfold fmsub1. rewrite (Ef8 E8). destruct fm.
    - destruct (@fneg_ok F64 h (proj1 Ghh)) as (Wn & Fn & Vn & _). rewrite Ehh in Vn. assert (Gn : good (fneg (fw F64) h)) by (split; [exact Wn|rewrite Fn; apply Ghh]).
      pose proof (@fma_ok F64 nn xh xh _ (proj1 Gh) (proj1 Gh) Wn (conj (proj2 Gh) (conj (proj2 Gh) (proj2 Gn)))) as C. rewrite Ep, Vn in C.
      replace (p * v * (p * v) + - (hh * (v * v)))%R with ((p * p - hh) * (v * v))%R in C by ring. destruct (@quad_op X HF E8 v Hv (p * p - hh)%R _ ltac:(lra) C (@ffma_word nn F64 _ _ _)) as (G & s & V & N). split; auto. exists s. auto.
    - pose proof (mulc nn Gh Gh) as C. assert (Ehn : val F64 xh = (IZR n * bp (e - 25))%R) by (rewrite Eh; exact En).
      destruct (@exact_op _ _ 1022 C) as [F V]. { rewrite Ehn. replace (IZR n * bp (e - 25) * (IZR n * bp (e - 25)))%R with (IZR (n * n) * bp (e - 25 + (e - 25)))%R by (rewrite mult_IZR, bpow_plus; ring). apply fmt_int; [|clear -E1; lia]. rewrite mult_IZR, Rabs_mult. pose proof (Rabs_pos (IZR n)). nra. } { clear -E1; lia. }
      { rewrite Ep. replace (p * v * (p * v))%R with ((p * p) * (v * v))%R by ring. pose proof (v2_low Hv) as V2L. assert (0 < v * v)%R by nra. rewrite Rabs_mult, (Rabs_pos_eq (p * p)), (Rabs_pos_eq (v * v)) by lra. change 1022 with (2 + 1020). rewrite bpow_plus. change (bp 2) with 4%R. apply Rmult_le_compat; lra. }
      assert (Gm : good (fmul nn F64 xh xh)) by (split; [exact (@fmul_word nn F64 _ _)|exact F]). pose proof (subc nn Gm Ghh) as C'. rewrite V, Ep, Ehh in C'. replace (p * v * (p * v) - hh * (v * v))%R with ((p * p - hh) * (v * v))%R in C' by ring.
      destruct (@quad_op X HF E8 v Hv (p * p - hh)%R _ ltac:(lra) C' (@fsub_word nn F64 _ _)) as (G & s & V' & N). split; auto. exists s. auto. }
  destruct L1 as (Gl1 & s1 & Ns1 & El1). assert (Bs1 : (Rabs s1 <= / 5)%R). { pose proof (near_bound Ns1 A1). lra. }
  assert (A2 : (Rabs (p * (2 * (1 - p))) <= / 10)%R). { replace (p * (2 * (1 - p)))%R with (2 * (p - p * p))%R by ring. apply Rabs_le. assert (99 / 100 <= p * p)%R by nra. lra. }
  destruct (@fma_quad X HF E8 nn v Hv fm xh t _ p (2 * (1 - p))%R s1 Gh Gt Gl1 Ep Et' El1 ltac:(lra) ltac:(lra)) as (Gl2 & z2 & s2 & Nz2 & Ns2 & El2).
  assert (Bz2 : (Rabs z2 <= / 5)%R). { pose proof (near_bound Nz2 A2). lra. }
  assert (A3 : (Rabs (z2 + s1) <= 2 / 5)%R). { eapply Rle_trans; [apply Rabs_triang|]. lra. }
  assert (Bs2 : (Rabs s2 <= 1)%R). { pose proof (near_bound Ns2 A3). lra. }
  assert (A4 : (Rabs ((1 - p) * (1 - p)) <= 3 / 2)%R). { rewrite Rabs_mult. pose proof (Rabs_pos (1 - p)). nra. }
  destruct (@fma_quad X HF E8 nn v Hv fm xl xl _ (1 - p)%R (1 - p)%R s2 Gl Gl Gl2 El' El' El2 A4 ltac:(lra)) as (Gl3 & z3 & s3 & Nz3 & Ns3 & El3).
  split; [exact Ghh|]. split; [exact Gl3|]. rewrite El3, Ehh. pose proof (@corr_near p hh s1 z2 s2 z3 s3 Hp Bh Ns1 Nz2 Ns2 Nz3 Ns3) as R.
  replace (hh * (v * v) + s3 * (v * v) - v * v)%R with ((hh + s3 - 1) * (v * v))%R by ring. assert (0 < v * v)%R by nra. rewrite Rabs_mult, (Rabs_pos_eq (v * v)) by lra. apply Rmult_le_compat_r; lra.
Qed.
End Z.

Section M.
Context {X : xty} (HX : xty_ok X) (HF : is_int (xT X) = false) (E8 : esz (xT X) = 8%nat) (nn : nans).
Local Notation good y := (word 64 y /\ isfin F64 y = true).
Lemma good0 : good 0. Proof. split; [unfold word; lia|reflexivity]. Qed.
Lemma add0 y : good y -> (Rabs (val F64 y) <= bp 1020)%R -> good (fadd nn F64 0 y) /\ val F64 (fadd nn F64 0 y) = val F64 y.
Proof.
  intros G B. pose proof (addc nn good0 G) as C. change (val F64 0) with 0%R in C. rewrite Rplus_0_l in C. destruct (@exact_op _ _ 1020 C (@fmt_val F64 y) ltac:(clear; lia) B) as [F V]. split; auto. split; auto. exact (@fadd_word nn F64 _ _).
Qed.
Lemma zero_mid fm a m m' k : good a -> fsign 64 a = false -> good m -> good m' -> fmul nn F64 0 m = 0 -> val F64 m = bp k -> val F64 m' = bp (- k) -> (bp (-450) <= val F64 a * bp k <= bp 509)%R ->
  fmul nn F64 m' (fsqrt nn F64 (fadd nn F64 (fadd nn F64 (split_l (X := X) nn fm (fmul nn F64 0 m)) (split_l (X := X) nn fm (fmul nn F64 a m)))
    (fadd nn F64 (fmul nn F64 (fmul nn F64 0 m) (fmul nn F64 0 m)) (fmul nn F64 (fmul nn F64 a m) (fmul nn F64 a m))))) = a.
Proof.
  intros Ga Sa Gm Gm' Z0 Vm Vm' Ha. rewrite Z0. assert (E1 : fmul nn F64 0 0 = 0) by (clear; destruct nn; vm_compute; reflexivity).
  assert (E2 : split_l (X := X) nn fm 0 = 0). { unfold split_l, fmadd1, fmsub1. rewrite (Ef8 E8). clear. destruct nn, fm; vm_compute; reflexivity. }
  rewrite E1, E2. assert (U5 : (bp 509 <= bp (emax F64 - 2))%R) by (apply bpow_le; clear; cbn; lia). assert (L5 : (bp (emin F64 + prec F64 - 1) <= bp (-450))%R) by (apply bpow_le; clear; cbn; lia). assert (L6 : (bp 509 <= bp 510)%R) by (apply bpow_le; clear; lia).
  pose proof (bpow_gt_0 radix2 (-450)) as P450.
  destruct (@scaled nn F64 a m k (proj1 Ga) (proj2 Ga) (proj1 Gm) (proj2 Gm) Vm) as (Wx & Fx & Vx). { left. rewrite Rabs_pos_eq by lra. lra. } { rewrite Rabs_pos_eq by lra. lra. }
  set (x := fmul nn F64 a m) in *. set (v := (val F64 a * bp k)%R) in *. assert (Hv : (bp (-450) <= v <= bp 510)%R) by lra.
  destruct (@split_exact X HF E8 nn fm x v (conj Wx Fx) Vx Hv) as (Gh & Gl & B). assert (V2 : (0 < v * v <= bp 1018)%R). { split; [nra|]. change 1018 with (509 + 509). rewrite bpow_plus. apply Rmult_le_compat; lra. }
  assert (SX : sq_ok (X := X) nn fm x) by (apply (sq_range HF E8); [split; auto|rewrite Vx; exact Hv]). destruct SX as (_ & _ & _ & X2 & X3). rewrite Vx in X2, X3.
  assert (K : forall s, (Rabs s <= 4 * (v * v))%R -> (Rabs s <= bp 1020)%R). { intros s Hs. eapply Rle_trans; [exact Hs|]. change 1020 with (2 + 1018). rewrite bpow_plus. change (bp 2) with 4%R. lra. }
  apply Rabs_imp in X2, X3. set (h := fmul nn F64 x x) in *. set (l := split_l (X := X) nn fm x) in *.
  destruct (@add0 l Gl) as [G1 W1]. { apply K. apply Rabs_le. unfold u53, e150 in *. lra. }
  destruct (@add0 h Gh) as [G2 W2]. { apply K. apply Rabs_le. unfold u53, e150 in *. lra. }
  pose proof (addc nn G1 G2) as C. rewrite W1, W2 in C. set (s := fadd nn F64 (fadd nn F64 0 l) (fadd nn F64 0 h)) in *. rewrite Rplus_comm in C.
  destruct (@cr_lt F64 _ _ 1020 C ltac:(clear; cbn; lia)) as [Fs Vs]. { apply K. apply Rabs_le. apply Rabs_imp in B. unfold u53 in *. lra. }
  pose proof (@sqrt_back v (val F64 h + val F64 l)%R) as SB. assert (Fv : generic_format radix2 fx v) by (rewrite <- Vx; exact (@fmt_val F64 x)). specialize (SB Fv Hv B). rewrite <- Vs in SB.
  assert (Ps : (0 < val F64 s)%R). { destruct (Rlt_or_le 0 (val F64 s)) as [L|L]; auto. exfalso. pose proof (sqrt_neg_0 _ L) as S0. rewrite S0 in SB. unfold rnd in SB. rewrite round_0 in SB by typeclasses eauto. lra. }
  assert (Gs : good s) by (split; [exact (@fadd_word nn F64 _ _)|exact Fs]).
  destruct (@fsqrt_fin nn F64 s (proj1 Gs) (proj2 Gs) (Rlt_le _ _ Ps)) as (Vc & Fc & _). set (c := fsqrt nn F64 s) in *. rewrite SB in Vc. assert (Gc : good c) by (split; [exact (@fsqrt_word nn F64 _)|exact Fc]).
  pose proof (mulc nn Gm' Gc) as C2. rewrite Vm', Vc in C2. assert (Ev : (bp (- k) * v = val F64 a)%R). { unfold v. rewrite Rmult_comm, Rmult_assoc, <- bpow_plus. replace (k + - k) with 0 by (clear; lia). change (bp 0) with 1%R. ring. } rewrite Ev in C2.
  unfold correct_round in C2. rewrite (@rnd_id F64 _ (@fmt_val F64 a)) in C2. rewrite Rlt_bool_true in C2 by apply val_lt_emax. destruct C2 as [Fr Vr]. set (r := fmul nn F64 m' c) in *.
  assert (Wr : word (fw F64) r) by exact (@fmul_word nn F64 _ _). apply (@bits_inj F64 r a Wr (proj1 Ga) Fr (proj2 Ga) Vr).
  change (fw F64) with 64. rewrite Sa. pose proof (@val_sgnr F64 r Wr Fr) as VS. destruct (fsign 64 r) eqn:Sr; auto. exfalso. change (fw F64) with 64 in VS. rewrite Sr in VS. cbn [sgnr] in VS. pose proof (@mval_nonneg F64 (fmag 64 r)). assert (0 < val F64 a)%R; [|lra].
  destruct (Rlt_or_le 0 (val F64 a)) as [L|L]; auto. exfalso. pose proof (bpow_gt_0 radix2 k). assert (v <= 0)%R by (unfold v; nra). lra.
Qed.
(** a double with a zero second operand, in the range left open by hypd_zero *)
Lemma hypd_mid fm pn a : 0 < topd a < 65 * 2 ^ 20 -> hypd (X := X) nn fm pn a 0 = a.
Proof.
  intros T. pose proof (@top_bits X HF E8 a) as Ta. assert (Ra : 0 <= a < finf (fw F64)) by (clear -T Ta; cbn; lia).
  assert (Ga : good a) by (split; [exact (nn_word F64 Ra)|exact (nn_fin F64 Ra)]). pose proof (@nn_val F64 a Ra) as Va.
  assert (T1 : 0 <= topd a < 2 ^ 31) by (clear -T; lia). assert (T2 : 0 <= topd 0 < 2 ^ 31) by (clear; cbn; lia). change (topd 0) with 0 in *.
  assert (S : (topd a =? 0) || (65 * 2 ^ 20 - 1 <? topd a - 0) = false) by (clear -T; lia).
  assert (E : hypd (X := X) nn fm pn a 0 = d_c0 (X := X) nn fm a 0).
  { unfold hypd. change (topd 0) with 0. replace (0 =? 0x7ff00000) with false by reflexivity. replace (0x7ff00000 <=? topd a) with false by (clear -T; lia). rewrite (d_abs_spec HF E8 T1 T2), S. destruct pn; reflexivity. }
  rewrite E. unfold d_c0. cbv zeta. rewrite (@topd_eq a), (@topd_eq 0) by (clear -T Ta; lia). change (topd 0) with 0. rewrite (d_abs_spec HF E8 T1 T2), S. unfold d_mult, d_scale. rewrite (d_big_spec HF E8 T1), (d_smallm_spec HF E8 T1 T2).
  assert (G1 : good 0x1430000000000000) by (split; [unfold word; lia|reflexivity]). assert (G2 : good 0x6bb0000000000000) by (split; [unfold word; lia|reflexivity]).
  rewrite (Ef8 E8). replace (0x5fd * 2 ^ 20 <=? topd a) with false by (clear -T; lia). replace (topd a <? 0x5fd * 2 ^ 20) with true by (clear -T; lia). replace (0 <? 0x23d * 2 ^ 20) with true by reflexivity. cbn [andb orb].
  assert (Q : forall i j, i <= j -> (bp i <= bp j)%R) by (intros; now apply bpow_le).
  assert (L1 : (bp (-1042) <= mval F64 a)%R). { replace (bp (-1042)) with (mval F64 (2 ^ 32)). { apply mval_le. clear -T Ta; lia. } unfold mval, msig, mex, mexp, mman. cbn [mw]. change (2 ^ 32 / 2 ^ 52 =? 0) with true. change (2 ^ 32 mod 2 ^ 52) with (Zpower radix2 32). cbv iota. rewrite IZR_Zpower by lia. rewrite <- bpow_plus. reflexivity. }
  assert (U1 : (mval F64 a <= bp (-385))%R). { exact (@lt_d X HF E8 a 638 ltac:(lia) ltac:(clear -T Ta; lia)). } rewrite <- Va in L1, U1.
  assert (A1 : (bp (-342) <= val F64 a * bp 700)%R). { change (-342) with (-1042 + 700). rewrite bpow_plus. apply Rmult_le_compat_r; [apply bpow_ge_0|exact L1]. }
  assert (A3 : (val F64 a * bp 700 <= bp 315)%R). { change 315 with (-385 + 700). rewrite bpow_plus. apply Rmult_le_compat_r; [apply bpow_ge_0|exact U1]. }
  assert (Z2 : fmul nn F64 0 0x6bb0000000000000 = 0) by (clear; destruct nn; vm_compute; reflexivity). apply (@zero_mid fm a _ _ 700); auto; try exact (vm700 HF E8); try exact (vp700 HF E8).
  - unfold fsign. try apply Z.leb_gt. try apply Z.ltb_ge. clear -T Ta. change (2 ^ (64 - 1)) with (2 ^ 63). lia.
  - split; [eapply Rle_trans; [|exact A1]; apply Q; clear; lia|eapply Rle_trans; [exact A3|apply Q; clear; lia]].
Qed.
End M.
