(** hypot of doubles and floats: scaling, the two branches, the final multiplication (C66). *)
From Coq Require Import ZifyBool ZifyNat Reals Lra.
From Flocq Require Import Core Relative Mult_error IEEE754.BinarySingleNaN IEEE754.Binary.
From Verif Require Import Base Cxx Spec X86Vec X86 X86Lemmas X86Proofs X86Ops X86Shift Fp FpLemmas FpOps FMath FMathProofs FLane FFields FManip FManipLanes PropManip RoundSem FArith PropArith FCvt Hypot HypotProofs HypotSem PropHypot PropIeee FErr ArcKern HypNum HypSplit HypAcc.
Set Implicit Arguments.
Open Scope Z_scope.
Local Notation bp := (bpow radix2).

(** The largest finite number. *)
Definition max_value (f : fmt) : R := val f (finf (fw f) - 1).
Definition hyp_near (f : fmt) (x y : R) (r : Z) : Prop :=
  let H := sqrt (x * x + y * y) in
  (isfin f r = true /\ Rabs (val f r - H) <= 3 * bp (- prec f) * H + eta f)%R \/ (r = infs f false /\ (max_value f < H * (1 + 3 * bp (- prec f)))%R).
Lemma finish f r s H e d : correct_round f s r -> (0 <= s)%R -> (0 <= H)%R -> (Rabs (s - H) <= e * H)%R -> (Rabs (rnd f s - s) <= d)%R ->
  (isfin f r = true /\ Rabs (val f r - H) <= e * H + d)%R \/ (r = infs f false /\ (max_value f < H * (1 + e))%R).
Proof.
  intros C Hs HH E D. unfold correct_round in C. destruct (Rlt_bool_spec (Rabs (rnd f s)) (bp (emax f))) as [B|B].
  - destruct C as [F V]. left. split; auto. rewrite V. replace (rnd f s - H)%R with ((s - H) + (rnd f s - s))%R by ring. eapply Rle_trans; [apply Rabs_triang|]. lra.
  - right. rewrite Rlt_bool_false in C by lra. split; auto. apply Rabs_imp in E. destruct (Rlt_or_le (max_value f) s) as [L|L]; [lra|]. exfalso.
    assert (Q : (rnd f s <= max_value f)%R). { unfold max_value. rewrite <- (@rnd_id f _ (@fmt_val f (finf (fw f) - 1))). fold (max_value f). unfold rnd. apply round_le; try typeclasses eauto; auto. }
    assert (P : (0 <= rnd f s)%R). { unfold rnd. apply round_ge_generic; try typeclasses eauto; auto. apply generic_format_0. }
    rewrite Rabs_right in B by lra. pose proof (@val_lt_emax f (finf (fw f) - 1)) as V. fold (max_value f) in V. rewrite Rabs_right in V by lra. lra.
Qed.
(** scaling *)
Lemma scaled nn f a m k : word (fw f) a -> isfin f a = true -> word (fw f) m -> isfin f m = true -> val f m = bp k ->
  (bp (emin f + prec f - 1) <= Rabs (val f a * bp k))%R \/ 0 <= k -> (Rabs (val f a * bp k) <= bp (emax f - 2))%R ->
  word (fw f) (fmul nn f a m) /\ isfin f (fmul nn f a m) = true /\ val f (fmul nn f a m) = (val f a * bp k)%R.
Proof.
  intros Wa Fa Wm Fm Vm L U. destruct (@mul_ok nn f a m Wa Wm) as (_ & C & _). destruct (C Fa Fm) as [C1 _]. rewrite Vm in C1.
  destruct (@cr_lt f _ _ (emax f - 2) C1 ltac:(clear; destruct f; cbn; lia) U) as [F V]. split; [apply fmul_word|]. split; auto. rewrite V. apply rnd_id. apply scale_exact; auto. apply fmt_val.
Qed.
Lemma hyp_scale a b k : (sqrt ((a * bp k) * (a * bp k) + (b * bp k) * (b * bp k)) * bp (- k) = sqrt (a * a + b * b))%R.
Proof.
  replace ((a * bp k) * (a * bp k) + (b * bp k) * (b * bp k))%R with ((a * a + b * b) * (bp k * bp k))%R by ring.
  rewrite sqrt_mult_alt by nra. rewrite sqrt_square by apply bpow_ge_0. rewrite Rmult_assoc, <- bpow_plus. replace (k + - k) with 0 by lia. change (bp 0) with 1%R. ring.
Qed.
(** the branch that returns the sum *)
Lemma sum_ok nn f a b n : word (fw f) a -> word (fw f) b -> isfin f a = true -> isfin f b = true -> (0 <= val f b)%R -> (0 <= val f a)%R -> prec f <= n -> (val f b * bp n <= val f a)%R ->
  hyp_near f (val f a) (val f b) (fadd nn f a b).
Proof.
  intros Wa Wb Fa Fb Pb Pa Hn Hr. destruct (@add_ok nn f a b Wa Wb) as (_ & C & _). destruct (C Fa Fb) as [C1 _]. set (x := val f a) in *. set (y := val f b) in *.
  assert (U : (0 < bp (- prec f) <= / 1024)%R). { split; [apply bpow_gt_0|]. change (/ 1024)%R with (bp (-10)). apply bpow_le. clear. destruct f; cbn; lia. }
  assert (Y : (y <= bp (- prec f) * x)%R). { assert (y * bp (prec f) <= x)%R. { eapply Rle_trans; [|exact Hr]. apply Rmult_le_compat_l; auto. apply bpow_le. lia. }
    apply Rmult_le_reg_r with (bp (prec f)); [apply bpow_gt_0|]. replace (bp (- prec f) * x * bp (prec f))%R with (x * (bp (- prec f) * bp (prec f)))%R by ring. rewrite <- bpow_plus. replace (- prec f + prec f) with 0 by lia. change (bp 0) with 1%R. lra. }
  assert (YX : (y <= x)%R) by nra. destruct (@hyp_bounds x y ltac:(lra)) as [L1 L2]. set (H := sqrt (x * x + y * y)) in *.
  pose proof (rnd_rel f (x + y)) as RR. fold (eta f) in RR. rewrite (Rabs_right (x + y)) in RR by lra.
  destruct (@finish f _ (x + y) H (bp (- prec f)) (bp (- prec f) * (x + y) + eta f) C1) as [[F B]|[I B]]; auto; try lra.
  - apply Rabs_le. nra.
  - left. split; auto. fold H. eapply Rle_trans; [exact B|]. nra.
  - right. split; auto. fold H. eapply Rlt_le_trans; [exact B|]. nra.
Qed.

Section Dbl.
Context {X : xty} (HX : xty_ok X) (HF : is_int (xT X) = false) (E8 : esz (xT X) = 8%nat) (nn : nans).
Local Notation good y := (word 64 y /\ isfin F64 y = true).
Lemma top_bits a : topd a * 2 ^ 32 <= a < (topd a + 1) * 2 ^ 32.
Proof. unfold topd. pose proof (Z_div_mod_eq_full a (2 ^ 32)). pose proof (Z.mod_pos_bound a (2 ^ 32) ltac:(lia)). lia. Qed.
Lemma bp_d n : 1 <= n -> mval F64 (n * 2 ^ 52) = bp (n - 1023).
Proof. intros H. change (2 ^ 52) with (2 ^ mw F64). rewrite (@mval_pow F64 n H). f_equal. cbn. lia. Qed.
Lemma ge_d a n : 1 <= n -> n * 2 ^ 52 <= a -> (bp (n - 1023) <= mval F64 a)%R.
Proof. intros H L. rewrite <- bp_d by auto. apply mval_le. lia. Qed.
Lemma lt_d a n : 1 <= n -> 0 <= a <= n * 2 ^ 52 -> (mval F64 a <= bp (n - 1023))%R.
Proof. intros H L. rewrite <- bp_d by auto. now apply mval_le. Qed.
Lemma vm700 : val F64 0x1430000000000000 = bp (-700). Proof. rewrite nn_val by (cbn; lia). exact (@bp_d 323 ltac:(lia)). Qed.
Lemma vp700 : val F64 0x6bb0000000000000 = bp 700. Proof. rewrite nn_val by (cbn; lia). exact (@bp_d 1723 ltac:(lia)). Qed.
Lemma v1 : val F64 0x3ff0000000000000 = bp 0. Proof. rewrite nn_val by (cbn; lia). exact (@bp_d 1023 ltac:(lia)). Qed.
(** operands scaled by 2^k, result scaled back *)
Lemma c0_near fm a b m m' k : good a -> good b -> good m -> good m' -> val F64 m = bp k -> val F64 m' = bp (- k) -> (0 <= val F64 b <= val F64 a)%R ->
  (bp (-1022) <= val F64 a * bp k)%R \/ 0 <= k -> (b = 0 \/ (bp (-450) <= val F64 b * bp k)%R) -> (bp (-450) <= val F64 a * bp k <= bp 510)%R ->
  hyp_near F64 (val F64 a) (val F64 b) (fmul nn F64 m' (fsqrt nn F64 (fadd nn F64 (fadd nn F64 (split_l (X := X) nn fm (fmul nn F64 b m)) (split_l (X := X) nn fm (fmul nn F64 a m)))
    (fadd nn F64 (fmul nn F64 (fmul nn F64 b m) (fmul nn F64 b m)) (fmul nn F64 (fmul nn F64 a m) (fmul nn F64 a m)))))).
Proof.
  intros Ga Gb Gm Gm' Vm Vm' Hab Hk Hb Ha. assert (Hk0 : (0 < bp k)%R) by apply bpow_gt_0.
  assert (U5 : (bp 510 <= bp (emax F64 - 2))%R) by (apply bpow_le; clear; cbn; lia). assert (L5 : (bp (emin F64 + prec F64 - 1) <= bp (-450))%R) by (apply bpow_le; clear; cbn; lia).
  destruct (@scaled nn F64 a m k (proj1 Ga) (proj2 Ga) (proj1 Gm) (proj2 Gm) Vm) as (Wx & Fx & Vx). { left. rewrite Rabs_right by nra. lra. } { rewrite Rabs_right by nra. lra. }
  assert (SY : good (fmul nn F64 b m) /\ val F64 (fmul nn F64 b m) = (val F64 b * bp k)%R /\ sq_ok (X := X) nn fm (fmul nn F64 b m)).
  { destruct Hb as [-> | Hb].
    - assert (V0 : val F64 0 = 0%R) by reflexivity. destruct (@mul_ok nn F64 0 m (proj1 Gb) (proj1 Gm)) as (_ & C & _). destruct (C (proj2 Gb) (proj2 Gm)) as [_ Z]. specialize (Z ltac:(rewrite V0; ring)).
      assert (S0 : sg F64 m = false). { destruct (sg F64 m) eqn:S; auto. exfalso. pose proof (@val_mag F64 m (proj1 Gm) (proj2 Gm)) as E. unfold sg in S. rewrite S in E. rewrite Vm in E. pose proof (@mval_nonneg F64 (fmag (fw F64) m)). lra. }
      rewrite S0 in Z. change (sg F64 0) with false in Z. change (szero F64 (xorb false false)) with 0 in Z. rewrite Z. split; [split; [unfold word; lia|reflexivity]|]. split; [rewrite V0; ring|now apply sq_zero].
    - destruct (@scaled nn F64 b m k (proj1 Gb) (proj2 Gb) (proj1 Gm) (proj2 Gm) Vm) as (W & F & V). { left. rewrite Rabs_right by nra. lra. } { rewrite Rabs_right by nra. assert (val F64 b * bp k <= val F64 a * bp k)%R by (apply Rmult_le_compat_r; lra). lra. }
      split; auto. split; auto. apply (sq_range HF E8); auto. rewrite V. split; auto. assert (val F64 b * bp k <= val F64 a * bp k)%R by (apply Rmult_le_compat_r; lra). lra. }
  destruct SY as (Gy & Vy & SY). assert (SX : sq_ok (X := X) nn fm (fmul nn F64 a m)) by (apply (sq_range HF E8); auto; rewrite Vx; lra).
  destruct (core_ok HF E8 (conj Wx Fx) SX SY) as (Gc & Bc & Hp). { rewrite Vx. lra. } { rewrite Vx, Vy. split; [nra|]. apply Rmult_le_compat_r; lra. }
  set (c := fsqrt nn F64 _) in *. rewrite Vx, Vy in Bc, Hp. set (H' := sqrt _) in *. pose proof (hyp_scale (val F64 a) (val F64 b) k) as HS. fold H' in HS.
  unfold hyp_near. cbv zeta. rewrite <- HS. pose proof (mulc nn Gm' Gc) as C. rewrite Vm' in C. rewrite Rmult_comm in C. assert (Hk1 : (0 < bp (- k))%R) by apply bpow_gt_0.
  assert (P : (0 <= val F64 c)%R). { apply Rabs_imp in Bc. unfold u53 in Bc. lra. }
  destruct (@finish F64 _ (val F64 c * bp (- k)) (H' * bp (- k)) (28 / 10 * u53) (eta F64) C) as [[F B]|[I B]].
  - apply Rmult_le_pos; lra.
  - apply Rmult_le_pos; lra.
  - rewrite <- Rmult_minus_distr_r, Rabs_mult, (Rabs_right (bp (- k))) by lra. rewrite <- Rmult_assoc. apply Rmult_le_compat_r; lra.
  - apply scale_err. apply fmt_val.
  - left. split; auto. eapply Rle_trans; [exact B|]. rewrite u53_bp. apply Rplus_le_compat_r. apply Rmult_le_compat_r; [apply Rmult_le_pos; lra|]. unfold u53. lra.
  - right. split; auto. eapply Rlt_le_trans; [exact B|]. rewrite u53_bp. apply Rmult_le_compat_l; [apply Rmult_le_pos; lra|]. unfold u53. lra.
Qed.
Lemma hypd_near fm pn a b : 0 <= b <= a -> a < finf 64 -> topd a <> 0 \/ b = 0 -> hyp_near F64 (val F64 a) (val F64 b) (hypd (X := X) nn fm pn a b).
Proof.
  intros Hab Hf Ht. pose proof (top_bits a) as Ta. pose proof (top_bits b) as Tb. change (finf 64) with 0x7ff0000000000000 in Hf.
  assert (Ra : 0 <= a < finf (fw F64)) by (cbn; lia). assert (Rb : 0 <= b < finf (fw F64)) by (cbn; lia).
  assert (Ga : good a) by (split; [exact (nn_word F64 Ra)|exact (nn_fin F64 Ra)]). assert (Gb : good b) by (split; [exact (nn_word F64 Rb)|exact (nn_fin F64 Rb)]).
  pose proof (@nn_val F64 a Ra) as Va. pose proof (@nn_val F64 b Rb) as Vb. assert (Hv : (0 <= val F64 b <= val F64 a)%R). { rewrite Va, Vb. split; [apply mval_nonneg|apply mval_le; lia]. }
  assert (T1 : 0 <= topd a < 2 ^ 31) by lia. assert (T2 : 0 <= topd b < 2 ^ 31) by lia.
  assert (E : hypd (X := X) nn fm pn a b = if d_abs (X := X) (topd a) (topd b) then fadd nn F64 a b else d_c0 (X := X) nn fm a b).
  { unfold hypd. replace (topd b =? 0x7ff00000) with false by lia. replace (0x7ff00000 <=? topd a) with false by lia. destruct pn, (d_abs (X := X) (topd a) (topd b)); reflexivity. }
  rewrite E. rewrite (d_abs_spec HF E8 T1 T2). destruct ((topd a =? 0) || (65 * 2 ^ 20 - 1 <? topd a - topd b)) eqn:S.
  - destruct (Z.eqb_spec (topd a) 0) as [Z|Z].
    + destruct Ht as [Ht | ->]; [lia|]. apply (@sum_ok nn F64 a 0 53 (proj1 Ga) (proj1 Gb) (proj2 Ga) (proj2 Gb)); [lra|lra|clear; cbn; lia|]. change (val F64 0) with 0%R. lra.
    + apply (@sum_ok nn F64 a b 64 (proj1 Ga) (proj1 Gb) (proj2 Ga) (proj2 Gb)); [lra|lra|clear; cbn; lia|]. rewrite Va, Vb. eapply Rle_trans; [apply (@mval_ratio F64 b 64); lia|]. apply mval_le. cbn [mw]. lia.
  - assert (D1 : topd a <> 0) by lia. assert (D2 : topd a - topd b < 65 * 2 ^ 20) by lia.
    unfold d_c0. cbv zeta. rewrite (@topd_eq a), (@topd_eq b) by (clear -Hab; lia). rewrite (d_abs_spec HF E8 T1 T2), S. unfold d_mult, d_scale. rewrite (d_big_spec HF E8 T1), (d_smallm_spec HF E8 T1 T2).
    assert (G1 : good 0x1430000000000000) by (split; [unfold word; lia|reflexivity]). assert (G2 : good 0x6bb0000000000000) by (split; [unfold word; lia|reflexivity]). assert (G3 : good 0x3ff0000000000000) by (split; [unfold word; lia|reflexivity]).
    rewrite (Ef8 E8). destruct (Z.leb_spec (0x5fd * 2 ^ 20) (topd a)) as [Big|Big].
    + cbn [orb]. pose proof (@ge_d a 1533 ltac:(lia) ltac:(lia)) as L1. pose proof (@ge_d b 1468 ltac:(lia) ltac:(lia)) as L2. pose proof (@lt_d a 2047 ltac:(lia) ltac:(lia)) as U1. rewrite <- Va in L1, U1. rewrite <- Vb in L2.
      assert (A1 : (bp (-190) <= val F64 a * bp (-700))%R). { change (-190) with (510 + -700). rewrite bpow_plus. apply Rmult_le_compat_r; [apply bpow_ge_0|exact L1]. }
      assert (A2 : (bp (-255) <= val F64 b * bp (-700))%R). { change (-255) with (445 + -700). rewrite bpow_plus. apply Rmult_le_compat_r; [apply bpow_ge_0|exact L2]. }
      assert (A3 : (val F64 a * bp (-700) <= bp 324)%R). { change 324 with (1024 + -700). rewrite bpow_plus. apply Rmult_le_compat_r; [apply bpow_ge_0|exact U1]. }
      assert (Q : forall i j, i <= j -> (bp i <= bp j)%R) by (intros; now apply bpow_le).
      apply (@c0_near fm a b _ _ (-700)); auto using vm700, vp700.
      * left. eapply Rle_trans; [|exact A1]. apply Q. lia.
      * right. eapply Rle_trans; [|exact A2]. apply Q. lia.
      * split; [eapply Rle_trans; [|exact A1]; apply Q; lia|eapply Rle_trans; [exact A3|apply Q; lia]].
    + cbn [orb]. replace (topd a <? 0x5fd * 2 ^ 20) with true by lia. cbn [andb]. assert (Q : forall i j, i <= j -> (bp i <= bp j)%R) by (intros; now apply bpow_le).
      destruct (Z.ltb_spec (topd b) (0x23d * 2 ^ 20)) as [Sm|Sm].
      * assert (L1 : (bp (-1042) <= mval F64 a)%R). { replace (bp (-1042)) with (mval F64 (2 ^ 32)). { apply mval_le. lia. } unfold mval, msig, mex, mexp, mman. cbn [mw]. change (2 ^ 32 / 2 ^ 52 =? 0) with true. change (2 ^ 32 mod 2 ^ 52) with (Zpower radix2 32). cbv iota. rewrite IZR_Zpower by lia. rewrite <- bpow_plus. reflexivity. }
        assert (U1 : (mval F64 a <= bp (-385))%R). { exact (@lt_d a 638 ltac:(lia) ltac:(lia)). } rewrite <- Va in L1, U1.
        assert (A1 : (bp (-342) <= val F64 a * bp 700)%R). { change (-342) with (-1042 + 700). rewrite bpow_plus. apply Rmult_le_compat_r; [apply bpow_ge_0|exact L1]. }
        assert (A3 : (val F64 a * bp 700 <= bp 315)%R). { change 315 with (-385 + 700). rewrite bpow_plus. apply Rmult_le_compat_r; [apply bpow_ge_0|exact U1]. }
        apply (@c0_near fm a b _ _ 700); auto using vm700, vp700.
        { right. lia. }
        { destruct (Z.eq_dec b 0) as [Zb|Zb]; [left; auto|right]. assert (L2 : (bp (-1074) <= val F64 b)%R). { rewrite Vb. replace (bp (-1074)) with (mval F64 1). { apply mval_le. lia. } unfold mval, msig, mex, mexp, mman. cbn [mw]. change (1 / 2 ^ 52 =? 0) with true. change (1 mod 2 ^ 52) with 1. cbv iota. rewrite Rmult_1_l. reflexivity. }
          apply Rle_trans with (bp (-1074) * bp 700)%R; [rewrite <- bpow_plus; apply Q; lia|]. apply Rmult_le_compat_r; [apply bpow_ge_0|exact L2]. }
        split; [eapply Rle_trans; [|exact A1]; apply Q; lia|eapply Rle_trans; [exact A3|apply Q; lia]].
      * pose proof (@ge_d b 573 ltac:(lia) ltac:(lia)) as L2. pose proof (@lt_d a 1533 ltac:(lia) ltac:(lia)) as U1. rewrite <- Va in U1. rewrite <- Vb in L2. change (573 - 1023) with (-450) in L2. change (1533 - 1023) with 510 in U1.
        apply (@c0_near fm a b _ _ 0); auto using v1; change (bp 0) with 1%R.
        { right. lia. }
        { right. lra. }
        lra.
Qed.
End Dbl.
