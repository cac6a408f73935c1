(** C35: uint32 to float, decided. *)
From Coq Require Import ZifyBool ZifyNat Reals Lra.
From Flocq Require Import Core IEEE754.BinarySingleNaN IEEE754.Binary.
From Verif Require Import Base Cxx Spec X86Vec X86 X86Lemmas X86Proofs X86Masks X86Ops Fp FpLemmas FpOps FKern FMath FMathProofs FLane FFields FManip FManipLanes PropX86 PropFloat PropManip RoundProofs RoundSem Round RoundVec FArith PropArith PropIeee FErr Cvt CvtProofs PropCvt PropRound HypSplit RintLarge CvtLarge CvtHalf.
Set Implicit Arguments.
Local Open Scope Z_scope.
Local Notation bp := (bpow radix2).

Lemma near_div q r h : 0 < h -> 0 <= r < 2 * h -> ZnearestE (IZR (q * (2 * h) + r) * / IZR (2 * h)) = if r <? h then q else if r =? h then (if Z.even q then q else q + 1) else q + 1.
Proof.
  intros Hh Hr. assert (Hp : (0 < IZR h)%R) by (apply IZR_lt; auto). assert (E : (IZR (q * (2 * h) + r) * / IZR (2 * h) = IZR q + IZR r / (2 * IZR h))%R) by (rewrite plus_IZR, !mult_IZR; field; lra). rewrite E. clear E.
  assert (B0 : (0 <= IZR r)%R) by (apply IZR_le; lia). assert (B1 : (IZR r < 2 * IZR h)%R) by (rewrite <- mult_IZR; apply IZR_lt; lia).
  assert (E : (IZR r / (2 * IZR h) * (2 * IZR h) = IZR r)%R) by (field; lra). set (t := (IZR r / (2 * IZR h))%R) in *.
  destruct (Z.ltb_spec r h) as [H|H]; [|destruct (Z.eqb_spec r h) as [H'|H']].
  - apply near_close. apply IZR_lt in H. apply Rabs_def1; nra.
  - assert (t = / 2)%R as ->. { rewrite H' in E. apply Rmult_eq_reg_r with (2 * IZR h)%R; [rewrite E; field|lra]. } apply near_half.
  - replace (IZR q + t)%R with (IZR (q + 1) + (t - 1))%R by (rewrite plus_IZR; ring). apply near_close. assert (Q : h < r) by lia. apply IZR_lt in Q. apply Rabs_def1; nra.
Qed.
Lemma rnd32_at x j : 1 <= j <= 7 -> 2 ^ (24 + j) <= x < 2 ^ (25 + j) -> rnd F32 (IZR x) = (IZR (ZnearestE (IZR x * / IZR (2 * 2 ^ j))) * IZR (2 * 2 ^ j))%R.
Proof.
  intros Hj Hx. assert (ED : bp (j + 1) = IZR (2 * 2 ^ j)). { rewrite <- IZR_Zpower by lia. f_equal. change (Zpower radix2 (j + 1)) with (2 ^ (j + 1)). rewrite Z.pow_add_r by lia. lia. }
  rewrite (@rnd_at F32 (IZR x) (j + 1)); [|cbn; lia|]. { rewrite bpow_opp, ED. reflexivity. }
  change (mw F32 + (j + 1)) with (23 + (j + 1)). change (mw F32 + 1 + (j + 1)) with (24 + (j + 1)). rewrite <- !IZR_Zpower by lia. split; apply IZR_le; [change (2 ^ (23 + (j + 1)) <= x)|change (x <= 2 ^ (24 + (j + 1)))]; [replace (23 + (j + 1)) with (24 + j) by lia|replace (24 + (j + 1)) with (25 + j) by lia]; lia.
Qed.
Lemma drop_bit x j : 1 <= j <= 7 -> 2 ^ (24 + j) <= x < 2 ^ (25 + j) -> (rnd F32 (IZR (x - x mod 2)) = rnd F32 (IZR x) <-> x mod 2 ^ (j + 2) <> 2 ^ j + 1).
Proof.
  intros Hj Hx. set (h := 2 ^ j). assert (Eh : 2 ^ j = 2 * 2 ^ (j - 1)) by (rewrite <- Z.pow_succ_r by lia; f_equal; lia). assert (Pj : 0 < 2 ^ (j - 1)) by (apply Z.pow_pos_nonneg; lia).
  assert (E4 : 2 ^ (j + 2) = 4 * h) by (rewrite Z.pow_add_r by lia; fold h; lia). assert (E24 : 2 ^ (24 + j) = 2 ^ 24 * h) by (rewrite Z.pow_add_r by lia; reflexivity).
  fold h in Eh. set (h' := 2 ^ (j - 1)) in *. pose proof (Z.div_mod x 2 ltac:(lia)) as D2. pose proof (Z.mod_pos_bound x 2 ltac:(lia)) as M2.
  pose proof (Z.div_mod x (2 * h) ltac:(lia)) as DH. pose proof (Z.mod_pos_bound x (2 * h) ltac:(lia)) as MH. set (q := x / (2 * h)) in *. set (r := x mod (2 * h)) in *.
  assert (X4 : x mod 2 ^ (j + 2) = (q mod 2) * (2 * h) + r). { rewrite E4. pose proof (Z.div_mod q 2 ltac:(lia)) as Dq. pose proof (Z.mod_pos_bound q 2 ltac:(lia)) as Mq. symmetry. apply (Z.mod_unique _ _ (q / 2)); [left; clear - Dq Mq MH Pj Eh; assert (CC : q mod 2 = 0 \/ q mod 2 = 1) by lia; destruct CC as [CC|CC]; rewrite CC; lia|]. rewrite DH at 1. rewrite Dq at 1. ring. } rewrite X4. clear X4.
  destruct (Z.eq_dec (x mod 2) 0) as [Ev|Od].
  - rewrite Ev, Z.sub_0_r. split; auto. intros _ K. assert (D4 : x = 2 * (q * h) + r) by lia. set (u := q * h) in *. set (w := q mod 2 * (2 * h)) in *. assert (w = 2 * (q mod 2 * h)) by (unfold w; ring). lia.
  - assert (Ex1 : x mod 2 = 1) by lia. rewrite Ex1. assert (Rod : 1 <= r). { destruct (Z.eq_dec r 0); [|lia]. assert (x = 2 * (q * h)) by lia. lia. }
    assert (Rh : r <> h). { intros K. assert (x = 2 * (q * h) + 2 * h') by lia. lia. }
    rewrite (@rnd32_at (x - 1) j Hj), (@rnd32_at x j Hj Hx); [|lia]. fold h. replace (x - 1) with (q * (2 * h) + (r - 1)) by lia. replace (IZR x) with (IZR (q * (2 * h) + r)) by (f_equal; lia).
    rewrite !near_div by lia. assert (Pd : (0 < IZR (2 * h))%R) by (apply IZR_lt; lia).
    assert (Rg : forall a b : Z, (IZR a * IZR (2 * h) = IZR b * IZR (2 * h))%R <-> a = b). { intros a b. split; [intros K; apply eq_IZR; apply Rmult_eq_reg_r in K; lra|intros ->; reflexivity]. } rewrite Rg.
    rewrite Zmod_even. destruct (Z.even q); destruct (Z.ltb_spec r h); destruct (Z.ltb_spec (r - 1) h); destruct (Z.eqb_spec r h); destruct (Z.eqb_spec (r - 1) h); lia.
Qed.
Lemma nf_val x n y : 0 <= x -> 0 <= n -> 0 < x -> 0 < n -> nearest_float F32 n y -> (nearest_float F32 x y <-> rnd F32 (IZR n) = rnd F32 (IZR x)).
Proof.
  intros _ _ Px Pn (W & F & V & S). unfold nearest_float. rewrite V, S. split; [tauto|]. intros E. repeat split; auto; try apply W. lia.
Qed.
(** uint32 -> float, decided: the result is the correctly rounded float for every uint32_t except those x with
    2^(24+j) <= x < 2^(25+j), 1 <= j <= 7, that are congruent to 2^j + 1 modulo 2^(j+2) (for these the result is not the nearest float). *)
Theorem C35_uint32_to_float_decided : forall X (HX : xty_ok X), esz (xT X) = 4%nat -> forall nn,
  let P := fun x y => nearest_float F32 x y <-> ~ (exists j, 1 <= j <= 7 /\ 2 ^ (24 + j) <= x < 2 ^ (25 + j) /\ x mod 2 ^ (j + 2) = 2 ^ j + 1) in
  load_gives X (cvt_to_f X false nn) P /\ store_gives X (cvt_to_f X false nn) P.
Proof.
  intros X HX E nn P. apply both with (k := u32l nn); auto.
  - intros v Hv. apply k_u32; auto.
  - intros x Hx. rewrite (@xw4 X E) in *. pose proof (u32l_ok nn Hx) as Q. split; [apply Q|]. unfold P. destruct Hx as [H0 H1]. destruct (Z.ltb_spec x (2 ^ 25)) as [L|L].
    + split; auto. intros _ (j & Hj & Hr & _). pose proof (Z.pow_le_mono_r 2 25 (24 + j) ltac:(lia) ltac:(lia)). lia.
    + pose proof (Z.mod_pos_bound x 2 ltac:(lia)) as M2. rewrite (nf_val (x := x) (n := x - x mod 2)) by (try exact Q; lia).
      assert (J : exists j, 1 <= j <= 7 /\ 2 ^ (24 + j) <= x < 2 ^ (25 + j)).
      { exists (Z.log2 x - 24). replace (24 + (Z.log2 x - 24)) with (Z.log2 x) by lia. replace (25 + (Z.log2 x - 24)) with (Z.succ (Z.log2 x)) by lia. split; [|apply Z.log2_spec; lia].
        pose proof (Z.log2_le_pow2 x 25 ltac:(lia)) as A. pose proof (Z.log2_lt_pow2 x 32 ltac:(lia)) as B. split; [assert (25 <= Z.log2 x) by (apply A; auto); lia|]. assert (Z.log2 x < 32) by (apply B; auto). lia. }
      destruct J as (j & Hj & Hr). rewrite (@drop_bit x j Hj Hr). split.
      * intros K (i & Hi & Hir & Hm). assert (i = j). { destruct (Z.lt_trichotomy i j) as [T|[T|T]]; auto; exfalso.
          - pose proof (Z.pow_le_mono_r 2 (25 + i) (24 + j) ltac:(lia) ltac:(lia)). lia.
          - pose proof (Z.pow_le_mono_r 2 (25 + j) (24 + i) ltac:(lia) ltac:(lia)). lia. } subst i. auto.
      * intros K Hm. apply K. exists j. auto.
Qed.
Print Assumptions C35_uint32_to_float_decided.
Example C35_uint32_to_float_decided_case : let D := f4 sse2 in xty_ok D /\
  x_copy_from_cvt D (cvt_to_f D false nans0) Ok [33554435; 33554439; 67108869; 67108877]%Z 0 [[0; 0; 0; 0]]%Z = Ok [[0x4c000000; 0x4c000002; 0x4c800000; 0x4c800002]]%Z /\
  33554435 mod 2 ^ 3 = 2 ^ 1 + 1 /\ 67108869 mod 2 ^ 4 = 2 ^ 2 + 1 /\ 67108877 mod 2 ^ 4 <> 2 ^ 2 + 1.
Proof. intros D. split; [xok|]. vm_compute. repeat split. discriminate. Qed.
