(** Conversions of doubles to 64-bit integers outside the range of the offset trick (C36, C47): wrong for every integral value. *)
From Coq Require Import ZifyBool ZifyNat Reals Lra.
From Flocq Require Import Core IEEE754.BinarySingleNaN IEEE754.Binary.
From Verif Require Import Base Cxx Spec X86Vec X86 X86Lemmas X86Proofs X86Ops Fp FpLemmas FpOps FMath FMathProofs FLane FFields FManip FManipLanes PropManip RoundSem FArith PropArith Cvt CvtProofs PropIeee FErr HypSplit HypZero.
Set Implicit Arguments.
Open Scope Z_scope.
Local Notation bp := (bpow radix2).
Local Notation fx := (SpecFloat.fexp 53 1024).

(** The bits of the double nearest to an integer *)
Lemma near_bits k b : word 64 b -> isfin F64 b = true -> val F64 b = rnd F64 (IZR k) -> Z.abs k <= 2 ^ 65 ->
  exists (sg : bool) E m, b = (if sg then 2 ^ 63 else 0) + E * 2 ^ 52 + m /\ 0 <= m < 2 ^ 52 /\ 0 <= E <= 1088 /\ (0 < k -> sg = false) /\ (k < 0 -> sg = true) /\
    (1076 <= E -> Z.abs (2 * (2 ^ 52 + m) * 2 ^ (E - 1075) - 2 * Z.abs k) <= 2 ^ (E - 1075)) /\
    (E < 1076 -> Z.abs k < 2 ^ 53 /\ (1 <= E -> Z.abs k * 2 ^ (1075 - E) = 2 ^ 52 + m) /\ (E = 0 -> k = 0)).
Proof.
  intros Wb Fb Vb Hk. destruct (@word_split F64 b Wb) as [R Eb]. change (fw F64) with 64 in *. change (64 - 1) with 63 in *.
  pose proof (@isfin_spec F64 b Wb) as Fs. rewrite Fb in Fs. change (fw F64) with 64 in Fs. symmetry in Fs. apply Z.ltb_lt in Fs. change (finf 64) with (2047 * 2 ^ 52) in Fs.
  set (q := fmag 64 b) in *. set (E := q / 2 ^ 52). set (m := q mod 2 ^ 52). assert (Q : q = 2 ^ 52 * E + m) by (apply Z_div_mod_eq_full). assert (Hm : 0 <= m < 2 ^ 52) by (apply Z.mod_pos_bound; lia). assert (HE : 0 <= E <= 2046) by lia.
  pose proof (@val_sgnr F64 b Wb Fb) as VS. change (fw F64) with 64 in VS. fold q in VS. rewrite Vb in VS.
  assert (MV0 : 1 <= E -> mval F64 q = (IZR (2 ^ 52 + m) * bp (E - 1075))%R). { intros L. unfold mval, msig, mex, mexp, mman. change (mw F64) with 52. fold E m. replace (E =? 0) with false by lia. rewrite Z.max_l by lia. rewrite (Z.add_comm m). replace (E + emin F64 - 1) with (E - 1075) by (cbn; lia). reflexivity. }
  pose proof (@mval_nonneg F64 q) as MP.
  assert (AV : Rabs (rnd F64 (IZR k)) = mval F64 q). { rewrite VS. destruct (fsign 64 b); cbn [sgnr]; rewrite ?Rabs_Ropp; apply Rabs_pos_eq; auto. }
  assert (SG : (0 < k -> fsign 64 b = false) /\ (k < 0 -> fsign 64 b = true)).
  { assert (F1 : generic_format radix2 fx 1%R). { replace 1%R with (1 * bp 0)%R by (cbn; ring). apply (@fmt_int 1 0); [rewrite Rabs_R1; lra|lia]. }
    split; intros L; destruct (fsign 64 b); auto; exfalso; cbn [sgnr] in VS.
    - assert (1 <= rnd F64 (IZR k))%R; [|lra]. unfold rnd. apply round_ge_generic; try typeclasses eauto; auto. apply IZR_le. lia.
    - assert (rnd F64 (IZR k) <= -1)%R; [|lra]. unfold rnd. apply round_le_generic; try typeclasses eauto; [now apply generic_format_opp|]. apply IZR_le. lia. }
  exists (fsign 64 b), E, m. split; [clear -Eb Q; revert Eb; clearbody E m; destruct (fsign 64 b); clearbody q; lia|]. split; auto.
  (* the error is half a unit in the last place of the result *)
  assert (ER : 1 <= E -> (Rabs (mval F64 q - IZR (Z.abs k)) <= / 2 * bp (E - 1075))%R).
  { intros L. rewrite abs_IZR, <- AV. eapply Rle_trans; [apply Rabs_triang_inv2|]. unfold rnd. eapply Rle_trans; [apply error_le_half_ulp_round; typeclasses eauto|]. apply Rmult_le_compat_l; [lra|]. right. fold (rnd F64 (IZR k)).
    rewrite <- ulp_abs, AV. assert (P : (0 < mval F64 q)%R). { rewrite MV0 by auto. apply Rmult_lt_0_compat; [apply IZR_lt; lia|apply bpow_gt_0]. }
    rewrite ulp_neq_0 by lra. f_equal. unfold cexp. rewrite (mag_unique_pos radix2 (mval F64 q) (E - 1075 + 53)). { change (SpecFloat.fexp (prec F64) (emax F64)) with fx. unfold SpecFloat.fexp, SpecFloat.emin. lia. }
    rewrite MV0 by auto. replace (E - 1075 + 53 - 1) with (52 + (E - 1075)) by lia. replace (E - 1075 + 53) with (53 + (E - 1075)) by lia. rewrite !bpow_plus. pose proof (bpow_gt_0 radix2 (E - 1075)). change (bp 52) with (IZR (2 ^ 52)). change (bp 53) with (IZR (2 ^ 53)).
    split; [apply Rmult_le_compat_r; [lra|apply IZR_le; lia]|apply Rmult_lt_compat_r; [lra|apply IZR_lt; lia]]. }
  assert (A1 : 1076 <= E -> Z.abs (2 * (2 ^ 52 + m) * 2 ^ (E - 1075) - 2 * Z.abs k) <= 2 ^ (E - 1075)).
  { intros L. specialize (ER ltac:(lia)). rewrite MV0 in ER by lia. apply le_IZR. rewrite abs_IZR, minus_IZR, !mult_IZR. change 2 with (radix_val radix2) at 3 5. rewrite !IZR_Zpower by lia. rewrite <- (mult_IZR 2), <- mult_IZR in *.
    assert (D : (IZR (2 * (2 ^ 52 + m)) * bp (E - 1075) - IZR (2 * Z.abs k) = 2 * (IZR (2 ^ 52 + m) * bp (E - 1075) - IZR (Z.abs k)))%R) by (rewrite !mult_IZR; ring). rewrite D, Rabs_mult, (Rabs_pos_eq 2) by lra. lra. }
  split; [|split; [apply SG|split; [apply SG|split; [exact A1|]]]].
  - split; [lia|]. destruct (Z.le_gt_cases E 1088) as [L|L]; auto. exfalso. specialize (A1 ltac:(lia)). assert (P : 2 ^ 14 <= 2 ^ (E - 1075)) by (apply Z.pow_le_mono_r; lia). set (w := 2 ^ (E - 1075)) in *. clearbody w. assert (2 ^ 14 * (2 * (2 ^ 52 + m) - 1) <= w * (2 * (2 ^ 52 + m) - 1)) by (apply Z.mul_le_mono_nonneg_r; lia). lia.
  - intros L. assert (K53 : Z.abs k < 2 ^ 53).
    { destruct (Z.lt_ge_cases (Z.abs k) (2 ^ 53)) as [C|C]; auto. exfalso. assert (B : (IZR (2 ^ 53) <= mval F64 q)%R).
      { rewrite <- AV. unfold rnd. apply abs_round_ge_generic; try typeclasses eauto. { replace (IZR (2 ^ 53)) with (1 * bp 53)%R by (cbn; ring). apply (@fmt_int 1 53); [rewrite Rabs_R1; lra|lia]. } rewrite <- abs_IZR. now apply IZR_le. }
      destruct (Z.eq_dec E 0) as [E0|E0].
      - unfold mval, msig, mex, mexp, mman in B. change (mw F64) with 52 in B. fold E m in B. rewrite E0 in B. cbn [Z.eqb] in B. cbn [Z.max Z.compare] in B. assert (bp (1 + emin F64 - 1) <= bp 0)%R by (apply bpow_le; cbn; lia). change (bp 0) with 1%R in H. pose proof (bpow_gt_0 radix2 (1 + emin F64 - 1)). assert (0 <= IZR m < IZR (2 ^ 52))%R by (split; [apply IZR_le|apply IZR_lt]; lia). assert (IZR (2 ^ 52) < IZR (2 ^ 53))%R by (apply IZR_lt; lia). nra.
      - rewrite MV0 in B by lia. assert (bp (E - 1075) <= bp 0)%R by (apply bpow_le; lia). change (bp 0) with 1%R in H. pose proof (bpow_gt_0 radix2 (E - 1075)). assert (0 <= IZR (2 ^ 52 + m) < IZR (2 ^ 53))%R by (split; [apply IZR_le|apply IZR_lt]; lia). nra. }
    assert (EX : rnd F64 (IZR k) = IZR k). { apply rnd_id. replace (IZR k) with (IZR k * bp 0)%R by (cbn; ring). apply (@fmt_int k 0); [|lia]. rewrite <- abs_IZR. change 9007199254740992%R with (IZR (2 ^ 53)). now apply IZR_lt. }
    rewrite EX, <- abs_IZR in AV. split; auto. split.
    + intros L1. rewrite MV0 in AV by auto. apply eq_IZR. rewrite mult_IZR. change 2 with (radix_val radix2) at 1. rewrite IZR_Zpower by lia. rewrite AV, Rmult_assoc, <- bpow_plus. replace (E - 1075 + (1075 - E)) with 0 by lia. cbn [bpow]. ring.
    + intros E0. unfold mval, msig, mex, mexp, mman in AV. change (mw F64) with 52 in AV. fold E m in AV. rewrite E0 in AV. cbn [Z.eqb] in AV. cbn [Z.max Z.compare] in AV.
      assert (B : (IZR m * bp (1 + emin F64 - 1) < 1)%R). { apply Rlt_le_trans with (bp 52 * bp (1 + emin F64 - 1))%R; [apply Rmult_lt_compat_r; [apply bpow_gt_0|change (bp 52) with (IZR (2 ^ 52)); apply IZR_lt; lia]|]. rewrite <- bpow_plus. change 1%R with (bp 0). apply bpow_le. cbn. lia. }
      rewrite <- AV in B. apply lt_IZR in B. lia.
Qed.

Section L.
Context (nn : nans) (x n : Z) (Wx : word 64 x) (Fx : isfin F64 x = true) (Vx : val F64 x = IZR n).
Lemma sum_bits c k : word 64 c -> isfin F64 c = true -> val F64 c = IZR k -> Z.abs (n + k) <= 2 ^ 65 -> word 64 (fadd nn F64 x c) /\ isfin F64 (fadd nn F64 x c) = true /\ val F64 (fadd nn F64 x c) = rnd F64 (IZR (n + k)).
Proof.
  intros Wc Fc Vc H. pose proof (@addc nn x c (conj Wx Fx) (conj Wc Fc)) as C. rewrite Vx, Vc, <- plus_IZR in C. split; [exact (@fadd_word nn F64 _ _)|]. apply (@cr_lt F64 _ _ 65 C); [cbn; lia|]. rewrite <- abs_IZR. change (bp 65) with (IZR (2 ^ 65)). now apply IZR_le.
Qed.
Lemma coarse : 2 ^ 62 <= Z.abs n -> exists j, n = 1024 * j.
Proof.
  intros H. pose proof (@fmt_val F64 x) as G. rewrite Vx in G. destruct (@mult_of (IZR n) 62 G) as [j Ej]. { rewrite <- abs_IZR. change (bp 62) with (IZR (2 ^ 62)). now apply IZR_le. }
  exists j. apply eq_IZR. rewrite Ej, mult_IZR. change (bp (62 - 52)) with 1024%R. ring.
Qed.
Lemma i64_wrong : - 2 ^ 63 <= n < 2 ^ 63 -> n < - 2 ^ 51 \/ 2 ^ 51 + 2 <= n -> sgn 64 (f64_i64l nn x) <> n.
Proof.
  intros Hn Ho Q. unfold f64_i64l in Q. change exp51m3 with (0x433 * 2 ^ 52 + 2 ^ 51) in Q.
  assert (Wc : word 64 exp51m3) by (split; [discriminate|reflexivity]). assert (Fc : isfin F64 exp51m3 = true) by reflexivity. assert (Vc : val F64 exp51m3 = IZR (3 * 2 ^ 51)). { change exp51m3 with (join F64 false 0x433 (2 ^ 51)). rewrite join_val by (cbn; lia). cbn. lra. }
  destruct (@sum_bits exp51m3 (3 * 2 ^ 51) Wc Fc Vc ltac:(lia)) as (Wb & Fb & Vb). change exp51m3 with (0x433 * 2 ^ 52 + 2 ^ 51) in *. set (b := fadd nn F64 x (0x433 * 2 ^ 52 + 2 ^ 51)) in *.
  destruct (@near_bits (n + 3 * 2 ^ 51) b Wb Fb Vb ltac:(lia)) as (sg & E & m & Eb & Hm & HE & S1 & S2 & A1 & A2).
  assert (C : exists c, b - (0x433 * 2 ^ 52 + 2 ^ 51) = n + 2 ^ 64 * c). { exists ((b - (0x433 * 2 ^ 52 + 2 ^ 51) - n) / 2 ^ 64). unfold wrap, sgn in Q. change (2 ^ (64 - 1)) with (2 ^ 63) in Q. pose proof (Z_div_mod_eq_full (b - (0x433 * 2 ^ 52 + 2 ^ 51)) (2 ^ 64)) as D.
    assert (M : (b - (0x433 * 2 ^ 52 + 2 ^ 51) - n) mod 2 ^ 64 = 0). { apply Z.mod_divide; [lia|]. set (t := (b - (0x433 * 2 ^ 52 + 2 ^ 51)) mod 2 ^ 64) in *. destruct (t <? 2 ^ 63) eqn:T; [exists ((b - (0x433 * 2 ^ 52 + 2 ^ 51)) / 2 ^ 64)|exists ((b - (0x433 * 2 ^ 52 + 2 ^ 51)) / 2 ^ 64 + 1)]; lia. }
    pose proof (Z_div_mod_eq_full (b - (0x433 * 2 ^ 52 + 2 ^ 51) - n) (2 ^ 64)) as D2. lia. }
  destruct C as [c C]. unfold word in Wb. assert (Hc : -1 <= c <= 1) by lia. pose proof coarse as CO. clear Q Wx Fx Vx Fb Vb Fc Vc Wc. clearbody b. subst b.
  destruct (Z.le_gt_cases 1076 E) as [L|L].
  - specialize (A1 L). clear A2. assert (E = 1076 \/ E = 1077 \/ E = 1078 \/ E = 1079 \/ E = 1080 \/ E = 1081 \/ E = 1082 \/ E = 1083 \/ E = 1084 \/ E = 1085 \/ E = 1086 \/ E = 1087 \/ E = 1088) as D by lia.
    assert (DC : c = -1 \/ c = 0 \/ c = 1) by lia. assert (J : exists j, 2 ^ 62 <= Z.abs n -> n = 1024 * j). { destruct (Z.le_gt_cases (2 ^ 62) (Z.abs n)) as [K|K]; [destruct (CO K) as [j Ej]; exists j; auto|exists 0; lia]. } destruct J as [j J]. clear CO.
    destruct sg; [assert (SK : n + 3 * 2 ^ 51 <= 0) by (destruct (Z.le_gt_cases (n + 3 * 2 ^ 51) 0); auto; discriminate S1; lia)|assert (SK : 0 <= n + 3 * 2 ^ 51) by (destruct (Z.le_gt_cases 0 (n + 3 * 2 ^ 51)); auto; discriminate S2; lia)];
    clear S1 S2; destruct D as [->|[->|[->|[->|[->|[->|[->|[->|[->|[->|[->|[->| ->]]]]]]]]]]]]; cbn [Z.sub] in A1; destruct DC as [->|[->| ->]]; lia.
  - destruct (A2 L) as (B1 & B2 & B3). clear A1 A2 CO. assert (N : n < - 2 ^ 51) by lia. clear Ho.
    destruct sg.
    + lia.
    + assert (SK : 0 <= n + 3 * 2 ^ 51) by (destruct (Z.le_gt_cases 0 (n + 3 * 2 ^ 51)); auto; discriminate S2; lia). assert (E = 1074 /\ m = n + 3 * 2 ^ 51) as [-> ->] by lia. specialize (B2 ltac:(lia)). change (2 ^ (1075 - 1074)) with 2 in B2. lia.
Qed.
End L.

Lemma lxor_hi E c m : 0 <= m < 2 ^ 52 -> 0 <= E -> 0 <= c -> Z.lxor (2 ^ 52 * E + m) (2 ^ 52 * c) = 2 ^ 52 * Z.lxor E c + m.
Proof.
  intros Hm HE Hc. assert (S : forall e, 2 ^ 52 * e + m = Z.lxor m (2 ^ 52 * e)). { intros e. pose proof (@lxor_low F64 e m Hm) as L. change (mw F64) with 52 in L. rewrite <- L at 2. rewrite Z.lxor_assoc, Z.lxor_nilpotent, Z.lxor_0_r. reflexivity. }
  rewrite (S E), Z.lxor_assoc, S. f_equal. rewrite !(Z.mul_comm (2 ^ 52)), <- !Z.shiftl_mul_pow2 by lia. symmetry. apply Z.shiftl_lxor.
Qed.
Section U.
Context (nn : nans) (x n : Z) (Wx : word 64 x) (Fx : isfin F64 x = true) (Vx : val F64 x = IZR n).
Lemma u64_wrong : 2 ^ 52 <= n < 2 ^ 64 -> f64_u64l nn x <> n.
Proof.
  intros Hn Q. unfold f64_u64l in Q.
  assert (Wc : word 64 exp52) by (split; [discriminate|reflexivity]). assert (Fc : isfin F64 exp52 = true) by reflexivity. assert (Vc : val F64 exp52 = IZR (2 ^ 52)). { change exp52 with (join F64 false 0x433 0). rewrite join_val by (cbn; lia). cbn. lra. }
  destruct (@sum_bits nn x n Wx Fx Vx exp52 (2 ^ 52) Wc Fc Vc ltac:(lia)) as (Wb & Fb & Vb). change exp52 with (2 ^ 52 * 0x433) in *. set (b := fadd nn F64 x (2 ^ 52 * 0x433)) in *.
  destruct (@near_bits (n + 2 ^ 52) b Wb Fb Vb ltac:(lia)) as (sg & E & m & Eb & Hm & HE & S1 & S2 & A1 & A2). rewrite (S1 ltac:(lia)) in Eb. clear S1 S2 sg Wb Fb Vb Wc Fc Vc Wx Fx Vx. clearbody b. subst b.
  destruct (Z.le_gt_cases 1076 E) as [L|L]; [|destruct (A2 L); lia]. specialize (A1 L). clear A2. replace (0 + E * 2 ^ 52 + m) with (2 ^ 52 * E + m) in Q by lia. rewrite lxor_hi in Q by lia.
  assert (E = 1076 \/ E = 1077 \/ E = 1078 \/ E = 1079 \/ E = 1080 \/ E = 1081 \/ E = 1082 \/ E = 1083 \/ E = 1084 \/ E = 1085 \/ E = 1086 \/ E = 1087 \/ E = 1088) as D by lia.
  destruct D as [->|[->|[->|[->|[->|[->|[->|[->|[->|[->|[->|[->| ->]]]]]]]]]]]];
  match type of Q with context [Z.lxor ?a ?b] => let v := eval vm_compute in (Z.lxor a b) in change (Z.lxor a b) with v in Q end; cbn [Z.sub] in A1; lia.
Qed.
(** the exact range of the signed conversion *)
Lemma i64_iff : - 2 ^ 63 <= n < 2 ^ 63 -> (sgn 64 (f64_i64l nn x) = n <-> - 2 ^ 51 <= n <= 2 ^ 51).
Proof.
  intros Hn. split.
  - intros Q. destruct (Z.lt_ge_cases n (- 2 ^ 51)) as [L|L]; [exfalso; exact (@i64_wrong nn x n Wx Fx Vx Hn (or_introl L) Q)|]. split; auto.
    destruct (Z.lt_ge_cases n (2 ^ 51 + 2)) as [L2|L2]; [|exfalso; exact (@i64_wrong nn x n Wx Fx Vx Hn (or_intror L2) Q)]. destruct (Z.eq_dec n (2 ^ 51 + 1)) as [E|E]; [|lia]. exfalso.
    assert (EX : x = 0x4320000000000002). { assert (W2 : word 64 0x4320000000000002) by (split; [discriminate|reflexivity]). assert (F2 : isfin F64 0x4320000000000002 = true) by reflexivity.
      assert (V2 : val F64 0x4320000000000002 = IZR (2 ^ 51 + 1)). { change 0x4320000000000002 with (join F64 false 0x432 2). rewrite join_val by (cbn; lia). cbn. lra. }
      apply (@bits_inj F64); auto; [rewrite Vx, V2, E; reflexivity|]. change (fsign (fw F64) 0x4320000000000002) with false. pose proof (@val_sgnr F64 x Wx Fx) as VS. destruct (fsign (fw F64) x); auto. exfalso. cbn [sgnr] in VS. pose proof (@mval_nonneg F64 (fmag (fw F64) x)). rewrite Vx, E in VS. assert (0 < IZR (2 ^ 51 + 1))%R by (apply IZR_lt; lia). lra. }
    assert (R : forall k, sgn 64 (f64_i64l k 0x4320000000000002) = 2 ^ 51) by (clear; intros k; destruct k; vm_compute; reflexivity). rewrite EX, R in Q. lia.
  - intros Q. rewrite (f64_i64l_ok nn Wx Fx). { rewrite Vx, Zrnd_IZR by apply valid_rnd_N. apply sgn_wrap; lia. } rewrite Vx, <- opp_IZR. split; apply IZR_le; lia.
Qed.
Lemma u64_iff : 0 <= n < 2 ^ 64 -> (f64_u64l nn x = n <-> n < 2 ^ 52).
Proof.
  intros Hn. split.
  - intros Q. destruct (Z.lt_ge_cases n (2 ^ 52)) as [L|L]; auto. exfalso. exact (u64_wrong (conj L (proj2 Hn)) Q).
  - intros Q. rewrite (f64_u64l_ok nn Wx Fx). { rewrite Vx. apply Zrnd_IZR. apply valid_rnd_N. } rewrite Vx. split; [apply IZR_le; lia|]. assert (IZR n <= IZR (2 ^ 52 - 1))%R by (apply IZR_le; lia). rewrite minus_IZR in H. lra.
Qed.
End U.
