(** rint of doubles without SSE4.1 beyond 2^52: exactly when |x| + 2^52 - 2^52 = |x| (C36). *)
From Coq Require Import ZifyBool ZifyNat Reals Lra.
From Flocq Require Import Core IEEE754.BinarySingleNaN IEEE754.Binary.
From Verif Require Import Base Cxx Spec X86Vec X86 X86Lemmas X86Proofs X86Ops Fp FpLemmas FpOps FMath FMathProofs FLane FFields FManip FManipLanes PropManip Round RoundLanes RoundSem FArith PropArith Cvt CvtProofs PropIeee FErr HypSplit HypZero.
Set Implicit Arguments.
Open Scope Z_scope.
Local Notation bp := (bpow radix2).
Local Notation fx := (SpecFloat.fexp 53 1024).

Lemma near_half n : ZnearestE (IZR n + / 2) = if Z.even n then n else n + 1.
Proof.
  unfold Znearest. assert (F : Zfloor (IZR n + / 2) = n) by (apply Zfloor_imp; rewrite plus_IZR; lra). assert (C : Zceil (IZR n + / 2) = n + 1) by (apply Zceil_imp; replace (n + 1 - 1) with n by lia; rewrite plus_IZR; lra).
  rewrite F, C. rewrite Rcompare_Eq by lra. destruct (Z.even n); reflexivity.
Qed.
Lemma near_close n d : (Rabs d < / 2)%R -> ZnearestE (IZR n + d) = n.
Proof. intros H. apply Znearest_imp. now replace (IZR n + d - IZR n)%R with d by ring. Qed.
Lemma fmt_even n k : Z.abs n < 2 ^ 53 \/ (Z.even n = true /\ Z.abs n < 2 ^ 54) -> 0 <= k -> generic_format radix2 fx (IZR n * bp k).
Proof.
  intros [H|[H1 H2]] K.
  - apply fmt_int; [|lia]. rewrite <- abs_IZR. change 9007199254740992%R with (IZR (2 ^ 53)). now apply IZR_lt.
  - rewrite Z.even_spec in H1. destruct H1 as [q ->]. replace (IZR (2 * q) * bp k)%R with (IZR q * bp (k + 1))%R by (rewrite bpow_plus, mult_IZR; change (bp 1) with 2%R; ring).
    apply fmt_int; [|lia]. rewrite <- abs_IZR. change 9007199254740992%R with (IZR (2 ^ 53)). apply IZR_lt. lia.
Qed.

(** the doubles j * 2^k, 2^52 <= j < 2^53, 0 <= k, on which adding and subtracting 2^52 changes nothing *)
Definition kept (j k : Z) : Prop :=
  k <= 52 /\ (Z.even j = true \/ j + 2 ^ (52 - k) <= 2 ^ 53) \/ k = 53 /\ Z.even j = true /\ j <> 2 ^ 52 \/ 54 <= k.

Section L.
Context (nn : nans) (m j k : Z) (Wm : word 64 m) (Fm : isfin F64 m = true) (Vm : val F64 m = (IZR j * bp k)%R) (Hj : 2 ^ 52 <= j < 2 ^ 53) (Hk : 0 <= k).
Lemma core_step s t : rnd F64 (IZR j * bp k + bp 52) = s -> (Rabs s < bp 1024)%R -> rnd F64 (s - bp 52) = t -> (0 < s - bp 52)%R -> (Rabs t < bp 1024)%R ->
  let z := @rint_core F64 nn m in word 64 z /\ isfin F64 z = true /\ fsign 64 z = false /\ val F64 z = t.
Proof.
  intros Es Bs Et Ps Bt z. destruct (@offset_ok F64) as (Wo & Fo & Vo & So). unfold z, rint_core. set (o := rint_offset (fw F64)) in *. clearbody o. change (mw F64) with 52 in Vo.
  destruct (@fadd_fin nn F64 m o Wm Wo Fm Fo) as (A1 & A2 & _). { rewrite Vm, Vo, Es. exact Bs. }
  rewrite Vm, Vo, Es in A1. assert (Wa : word (fw F64) (fadd nn F64 m o)) by apply fadd_word. destruct (@fsub_fin nn F64 (fadd nn F64 m o) o Wa Wo A2 Fo) as (B1 & B2 & B3). { rewrite A1, Vo, Et. exact Bt. }
  rewrite A1, Vo in B1, B3. split; [exact (@fsub_word nn F64 _ _)|]. split; auto. split; [|congruence]. rewrite Rcompare_Gt in B3 by lra. exact B3.
Qed.
Lemma rint_core_large : let z := @rint_core F64 nn m in word 64 z /\ isfin F64 z = true /\ fsign 64 z = false /\ (val F64 z = val F64 m <-> kept j k).
Proof.
  cbv zeta. pose proof (bpow_gt_0 radix2 k) as Pk. assert (J : (IZR (2 ^ 52) <= IZR j <= IZR (2 ^ 53) - 1)%R) by (rewrite <- minus_IZR; split; apply IZR_le; lia). change (IZR (2 ^ 52)) with (bp 52) in J. change (IZR (2 ^ 53)) with (2 * bp 52)%R in J.
  pose proof (bpow_gt_0 radix2 52) as P52. assert (VB := @val_lt_emax F64 m). rewrite Vm in VB. change (emax F64) with 1024 in VB.
  assert (CUT : forall s t, rnd F64 (IZR j * bp k + bp 52) = s -> (Rabs s < bp 1024)%R -> rnd F64 (s - bp 52) = t -> (0 < s - bp 52)%R -> (Rabs t < bp 1024)%R -> (t = (IZR j * bp k)%R <-> kept j k) ->
    let z := @rint_core F64 nn m in word 64 z /\ isfin F64 z = true /\ fsign 64 z = false /\ (val F64 z = val F64 m <-> kept j k)).
  { intros s t A1 A2 A3 A4 A5 A6. destruct (@core_step s t A1 A2 A3 A4 A5) as (B1 & B2 & B3 & B4). cbv zeta. rewrite B4, Vm. auto. }
  assert (BIG : forall r, (0 <= r <= bp 107)%R -> (Rabs r < bp 1024)%R). { intros r Hr. rewrite Rabs_pos_eq by lra. eapply Rle_lt_trans; [apply Hr|]. apply bpow_lt. lia. }
  assert (INJ : forall a e, (IZR a * bp e = IZR j * bp e)%R -> a = j). { intros a e H. apply eq_IZR. apply Rmult_eq_reg_r with (bp e); auto. pose proof (bpow_gt_0 radix2 e). lra. }
  destruct (Z_le_gt_dec k 52) as [K|K].
  - (* the last place is at most 2^52 *)
    set (c := 2 ^ (52 - k)). assert (Ec : (bp 52 = IZR c * bp k)%R). { unfold c. change 2 with (radix_val radix2). rewrite IZR_Zpower by lia. rewrite <- bpow_plus. f_equal. lia. }
    assert (Hc : 1 <= c <= 2 ^ 52). { unfold c. split; [apply (Z.pow_le_mono_r 2 0); lia|apply Z.pow_le_mono_r; lia]. }
    assert (Ev : k <= 51 -> exists h, c = 2 * h). { intros L. exists (2 ^ (51 - k)). unfold c. rewrite <- Z.pow_succ_r by lia. f_equal. lia. }
    assert (KB : (bp k <= bp 52)%R) by (apply bpow_le; lia). assert (UB : forall n, 0 <= n <= 2 ^ 54 -> (0 <= IZR n * bp k <= bp 107)%R).
    { intros n Hn. assert (0 <= IZR n <= bp 54)%R by (change (bp 54) with (IZR (2 ^ 54)); split; apply IZR_le; lia). split; [nra|]. apply Rle_trans with (bp 54 * bp 52)%R; [apply Rmult_le_compat; lra|]. rewrite <- bpow_plus. apply bpow_le. lia. }
    assert (Sum : (IZR j * bp k + bp 52 = IZR (j + c) * bp k)%R) by (rewrite Ec, plus_IZR; ring).
    destruct (Z_le_gt_dec (j + c) (2 ^ 53)) as [S|S]; [|destruct (Z.even (j + c)) eqn:Ej].
    + apply (CUT (IZR (j + c) * bp k)%R (IZR j * bp k)%R).
      * rewrite Sum. apply rnd_id. apply fmt_even; auto. destruct (Z.eq_dec (j + c) (2 ^ 53)) as [->|]; [right; split; [reflexivity|lia]|left; lia].
      * apply BIG, UB. lia.
      * rewrite <- Sum. replace (IZR j * bp k + bp 52 - bp 52)%R with (IZR j * bp k)%R by ring. apply rnd_id. apply fmt_even; auto. left. lia.
      * rewrite <- Sum. nra.
      * exact VB.
      * split; [intros _|auto]. left. split; auto.
    + apply (CUT (IZR (j + c) * bp k)%R (IZR j * bp k)%R).
      * rewrite Sum. apply rnd_id. apply fmt_even; auto. right. split; auto. lia.
      * apply BIG, UB. lia.
      * rewrite <- Sum. replace (IZR j * bp k + bp 52 - bp 52)%R with (IZR j * bp k)%R by ring. apply rnd_id. apply fmt_even; auto. left. lia.
      * rewrite <- Sum. nra.
      * exact VB.
      * split; [intros _|auto]. left. split; auto. left. destruct (Z_le_gt_dec k 51) as [L|L]. { destruct (Ev L) as [h Eh]. rewrite Eh, Z.even_add, Z.even_mul in Ej. cbn in Ej. destruct (Z.even j); auto. }
        exfalso. assert (c = 1) by (unfold c; replace (52 - k) with 0 by lia; reflexivity). lia.
    + assert (L : k <= 51). { destruct (Z_le_gt_dec k 51) as [L|L]; auto. exfalso. assert (c = 1) by (unfold c; replace (52 - k) with 0 by lia; reflexivity). lia. }
      destruct (Ev L) as [h Eh]. set (q := ZnearestE (IZR (j + c) / 2)).
      assert (Q : 2 * q = j + c + 1 \/ 2 * q = j + c - 1).
      { assert (D : (Rabs (IZR (j + c) / 2 - IZR q) <= / 2)%R) by apply Znearest_half. assert (D2 : (Rabs (IZR (j + c - 2 * q)) <= 1)%R). { rewrite minus_IZR, mult_IZR. replace (IZR (j + c) - 2 * IZR q)%R with (2 * (IZR (j + c) / 2 - IZR q))%R by field. rewrite Rabs_mult, (Rabs_pos_eq 2) by lra. lra. }
        rewrite <- abs_IZR in D2. apply le_IZR in D2. assert (Z.odd (j + c) = true) by (rewrite <- Z.negb_even, Ej; reflexivity). apply Z.odd_spec in H. destruct H as [w Hw]. lia. }
      assert (Eq : ZnearestE (IZR (j + c) / 2) = q) by reflexivity. clearbody q. apply (CUT (IZR q * bp (k + 1))%R (IZR (2 * q - c) * bp k)%R).
      * rewrite (@rnd_at F64 _ (k + 1)). 2:{ cbn. lia. }
        2:{ change (mw F64) with 52. rewrite Sum. replace (52 + (k + 1)) with (53 + k) by lia. replace (52 + 1 + (k + 1)) with (54 + k) by lia. rewrite (bpow_plus radix2 53), (bpow_plus radix2 54). change (bp 53) with (IZR (2 ^ 53)). change (bp 54) with (IZR (2 ^ 54)). split; apply Rmult_le_compat_r; try lra; apply IZR_le; lia. }
        rewrite Sum. f_equal. f_equal. rewrite <- Eq. f_equal. replace (- (k + 1)) with (- k + - 1) by lia. rewrite bpow_plus. change (bp (- 1)) with (/ 2)%R. rewrite bpow_opp. field. lra.
      * apply BIG. rewrite bpow_plus. change (bp 1) with 2%R. replace (IZR q * (bp k * 2))%R with (IZR (2 * q) * bp k)%R by (rewrite mult_IZR; ring). apply UB. lia.
      * replace (IZR q * bp (k + 1) - bp 52)%R with (IZR (2 * q - c) * bp k)%R. 2:{ rewrite Ec, minus_IZR, mult_IZR, bpow_plus. change (bp 1) with 2%R. ring. }
        apply rnd_id. apply fmt_even; auto. right. split; [|lia]. rewrite Eh. replace (2 * q - 2 * h) with (2 * (q - h)) by lia. now rewrite Z.even_mul.
      * replace (IZR q * bp (k + 1) - bp 52)%R with (IZR (2 * q - c) * bp k)%R. 2:{ rewrite Ec, minus_IZR, mult_IZR, bpow_plus. change (bp 1) with 2%R. ring. }
        apply Rmult_lt_0_compat; auto. apply IZR_lt. lia.
      * apply BIG, UB. lia.
      * split. { intros H. apply INJ in H. lia. } intros [[_ [H|H]]|[H|H]]; try lia. exfalso. rewrite Z.even_add, H, Eh, Z.even_mul in Ej. cbn in Ej. discriminate.
  - (* the last place is more than 2^52 *)
    assert (D : exists d, (bp 52 = d * bp k)%R /\ (0 < d <= / 2)%R /\ (k = 53%Z -> d = / 2)%R /\ ((54 <= k)%Z -> d <= / 4)%R).
    { exists (bp (52 - k)). split. { rewrite <- bpow_plus. f_equal. lia. } split. { split; [apply bpow_gt_0|]. change (/ 2)%R with (bp (- 1)). apply bpow_le. lia. }
      split; [intros ->; reflexivity|]. intros L. change (/ 4)%R with (bp (- 2)). apply bpow_le. lia. }
    destruct D as (d & Ed & Hd & D53 & D54). change (2 * bp 52)%R with (IZR (2 ^ 53)) in J. change (bp 52) with (IZR (2 ^ 52)) in J.
    assert (RD : forall x, (IZR (2 ^ 52) <= x <= IZR (2 ^ 53))%R -> rnd F64 (x * bp k) = (IZR (ZnearestE x) * bp k)%R).
    { intros x Hx. rewrite (@rnd_at F64 _ k). 2:{ cbn. lia. } { rewrite Rmult_assoc, <- bpow_plus. replace (k + - k) with 0 by lia. cbn [bpow]. now rewrite Rmult_1_r. }
      change (mw F64) with 52. replace (52 + 1 + k) with (53 + k) by lia. rewrite !bpow_plus. change (bp 52) with (IZR (2 ^ 52)). change (bp 53) with (IZR (2 ^ 53)). split; apply Rmult_le_compat_r; lra. }
    assert (Sum : (IZR j * bp k + bp 52 = (IZR j + d) * bp k)%R) by (rewrite Ed; ring).
    assert (Dif : forall n, (IZR n * bp k - bp 52 = (IZR n + - d) * bp k)%R) by (intros; rewrite Ed; ring).
    assert (E52 : IZR (2 ^ 52) = 4503599627370496%R) by reflexivity. assert (E53 : IZR (2 ^ 53) = 9007199254740992%R) by reflexivity.
    destruct (Z.eq_dec k 53) as [K53|K53].
    + specialize (D53 K53). set (q := if Z.even j then j else j + 1). assert (Hq : j <= q <= j + 1) by (unfold q; destruct (Z.even j); lia). assert (Hq2 : (IZR j <= IZR q <= IZR j + 1)%R) by (rewrite <- plus_IZR; split; apply IZR_le; lia).
      assert (R1 : rnd F64 (IZR j * bp k + bp 52) = (IZR q * bp k)%R). { rewrite Sum, RD by (rewrite D53; lra). rewrite D53, near_half. reflexivity. }
      assert (UB : forall x, (0 <= x <= IZR (2 ^ 53))%R -> (0 <= x * bp k <= bp 107)%R).
      { intros x Hx. split; [nra|]. subst k. apply Rle_trans with (bp 53 * bp 53)%R; [apply Rmult_le_compat_r; [lra|]; change (bp 53) with (IZR (2 ^ 53)); lra|]. rewrite <- bpow_plus. apply bpow_le. lia. }
      assert (Eb : (bp k = 2 * bp 52)%R) by (subst k; reflexivity).
      destruct (Z.eq_dec j (2 ^ 52)) as [J0|J0].
      * assert (Q0 : q = 2 ^ 52) by (unfold q; rewrite J0; reflexivity). rewrite Q0 in *. apply (CUT _ (IZR (2 ^ 53 - 1) * bp 52)%R R1).
        -- apply BIG, UB. rewrite E52, E53. lra.
        -- replace (IZR (2 ^ 52) * bp k - bp 52)%R with (IZR (2 ^ 53 - 1) * bp 52)%R. { apply rnd_id. apply fmt_even; [left|]; lia. } rewrite Eb. change (2 ^ 53 - 1) with (2 * 2 ^ 52 - 1). rewrite minus_IZR, mult_IZR. ring.
        -- rewrite Eb, E52. lra.
        -- apply BIG. split; [apply Rmult_le_pos; [apply IZR_le; lia|lra]|]. apply Rle_trans with (bp 53 * bp 52)%R; [apply Rmult_le_compat_r; [lra|]; change (bp 53) with (IZR (2 ^ 53)); apply IZR_le; lia|]. rewrite <- bpow_plus. apply bpow_le. lia.
        -- split. { intros H. exfalso. rewrite Eb, J0 in H. rewrite <- Rmult_assoc, <- mult_IZR in H. apply Rmult_eq_reg_r in H; [|lra]. apply eq_IZR in H. lia. } intros [[H _]|[(_ & _ & H)|H]]; lia.
      * assert (J1 : (IZR (2 ^ 52) + 1 <= IZR j)%R) by (rewrite <- plus_IZR; apply IZR_le; lia).
        assert (R2 : rnd F64 (IZR q * bp k - bp 52) = (IZR q * bp k)%R).
        { rewrite Dif, RD by (rewrite D53; lra). f_equal. f_equal. rewrite D53. replace (IZR q + - / 2)%R with (IZR (q - 1) + / 2)%R by (rewrite minus_IZR; field). rewrite near_half.
          assert (Oq : Z.even (q - 1) = false). { rewrite Z.even_sub. unfold q. destruct (Z.even j) eqn:V; [rewrite V|rewrite Z.even_add, V]; reflexivity. } rewrite Oq. lia. }
        apply (CUT _ (IZR q * bp k)%R R1).
        -- apply BIG, UB. lra.
        -- exact R2.
        -- rewrite Dif. apply Rmult_lt_0_compat; lra.
        -- apply BIG, UB. lra.
        -- split. { intros H. apply INJ in H. right. left. split; auto. split; auto. unfold q in H. destruct (Z.even j); auto. lia. } intros [[H _]|[(_ & H & _)|H]]; try lia. unfold q. now rewrite H.
    + specialize (D54 ltac:(lia)). assert (R1 : rnd F64 (IZR j * bp k + bp 52) = (IZR j * bp k)%R). { rewrite Sum, RD by lra. rewrite near_close; auto. rewrite Rabs_pos_eq; lra. }
      apply (CUT _ (IZR j * bp k)%R R1); auto.
      * destruct (Z.eq_dec j (2 ^ 52)) as [J0|J0].
        -- (* just below a power of two the last place is half as large *)
           replace (IZR j * bp k - bp 52)%R with ((IZR (2 ^ 53) + - (2 * d)) * bp (k - 1))%R.
           2:{ rewrite Dif, J0. replace (bp k) with (bp (1 + (k - 1))) by (f_equal; lia). rewrite bpow_plus. change (bp 1) with 2%R. rewrite E52, E53. ring. }
           rewrite (@rnd_at F64 _ (k - 1)). 2:{ cbn. lia. }
           2:{ change (mw F64) with 52. rewrite !(bpow_plus radix2 _ (k - 1)). change (bp (52 + 1)) with (IZR (2 ^ 53)). change (bp 52) with (IZR (2 ^ 52)). pose proof (bpow_gt_0 radix2 (k - 1)). split; apply Rmult_le_compat_r; lra. }
           rewrite Rmult_assoc, <- bpow_plus. replace (k - 1 + - (k - 1)) with 0 by lia. cbn [bpow]. rewrite Rmult_1_r.
           assert (N : ZnearestE (IZR (2 ^ 53) + - (2 * d)) = 2 ^ 53).
           { destruct (Req_dec d (/ 4)) as [Q|Q]; [|apply near_close; rewrite Rabs_Ropp, Rabs_pos_eq; lra]. replace (IZR (2 ^ 53) + - (2 * d))%R with (IZR (2 ^ 53 - 1) + / 2)%R by (rewrite Q, minus_IZR; field). rewrite near_half. reflexivity. }
           rewrite N, J0. replace (bp k) with (bp (1 + (k - 1))) by (f_equal; lia). rewrite bpow_plus. change (bp 1) with 2%R. rewrite E52, E53. ring.
        -- assert (J1 : (IZR (2 ^ 52) + 1 <= IZR j)%R) by (rewrite <- plus_IZR; apply IZR_le; lia). rewrite Dif, RD by lra. rewrite near_close; auto. rewrite Rabs_Ropp, Rabs_pos_eq; lra.
      * rewrite Dif. apply Rmult_lt_0_compat; lra.
      * split; auto. intros _. right. right. lia.
Qed.
End L.
