(** C35: float to uint32, decided. *)
From Coq Require Import ZifyBool ZifyNat Reals Lra.
From Flocq Require Import Core IEEE754.BinarySingleNaN IEEE754.Binary.
From Verif Require Import Base Cxx Spec X86Vec X86 X86Lemmas X86Proofs X86Masks X86Ops Fp FpLemmas FpOps FKern FMath FMathProofs FLane FFields FManip FManipLanes PropX86 PropFloat PropManip RoundProofs RoundSem Round RoundVec FArith PropArith PropIeee FErr Cvt CvtProofs PropCvt PropRound HypSplit RintLarge CvtLarge CvtHalf.
Set Implicit Arguments.
Local Open Scope Z_scope.
Local Notation bp := (bpow radix2).
Local Notation fmt32 := (generic_format radix2 (SpecFloat.fexp (prec F32) (emax F32))).

Definition off22 : Z := 0x4a800000.
Lemma c22 : word 32 off22 /\ isfin F32 off22 = true /\ val F32 off22 = 4194304%R.
Proof. repeat split; try discriminate; try reflexivity. change off22 with (join F32 false 149 0). rewrite join_val by (cbn; lia). cbn. lra. Qed.
Lemma sum22 nn x : word 32 x -> isfin F32 x = true -> (-1 <= val F32 x <= 8589934592)%R ->
  let b := fadd nn F32 x off22 in word 32 b /\ isfin F32 b = true /\ val F32 b = rnd F32 (val F32 x + 4194304).
Proof.
  intros Wx Fx H b. destruct c22 as (Wc & Fc & Vc). assert (B : (Rabs (rnd F32 (val F32 x + 4194304)) <= bp 34)%R). { apply rnd_le_bpow; [cbn; lia|]. change (bp 34) with 17179869184%R. apply Rabs_le. lra. }
  destruct (@fadd_fin nn F32 x off22) as (A1 & A2 & _); auto. { rewrite Vc. apply Rle_lt_trans with (1 := B). apply bpow_lt. cbn. lia. } rewrite Vc in A1. split; [exact (@fadd_word nn F32 _ _)|]. auto.
Qed.
Lemma bits32 b e m : word 32 b -> isfin F32 b = true -> -100 <= e <= 100 -> 2 ^ 23 <= m < 2 ^ 24 -> val F32 b = (IZR m * bp (e - 23))%R -> b = 2 ^ 23 * (127 + e) + (m - 2 ^ 23).
Proof.
  intros Wb Fb He Hm Vb. assert (E : 2 ^ 23 * (127 + e) + (m - 2 ^ 23) = join F32 false (127 + e) (m - 2 ^ 23)) by (unfold join, sbit; change (mw F32) with 23; lia). rewrite E.
  assert (B : 0 <= m - 2 ^ 23 < 2 ^ mw F32) by (change (mw F32) with 23; lia). assert (B2 : 1 <= 127 + e < 2 ^ eb F32 - 1) by (change (eb F32) with 8; lia).
  apply (@bits_inj F32); auto; [apply join_word; lia|apply join_fin; lia| |].
  - rewrite join_val by lia. rewrite Vb. cbn [sgnr]. change (emin F32) with (-149). change (mw F32) with 23. replace (m - 2 ^ 23 + 2 ^ 23) with m by lia. do 2 f_equal. lia.
  - rewrite join_sign by lia. pose proof (@val_sgnr F32 b Wb Fb) as VS. destruct (fsign (fw F32) b); auto. exfalso. cbn [sgnr] in VS. pose proof (@mval_nonneg F32 (fmag (fw F32) b)). assert (0 < IZR m)%R by (apply IZR_lt; lia). pose proof (bpow_gt_0 radix2 (e - 23)). assert (0 < IZR m * bp (e - 23))%R by now apply Rmult_lt_0_compat. lra.
Qed.
Lemma lxor_hi32 E c m : 0 <= m < 2 ^ 23 -> 0 <= E -> 0 <= c -> Z.lxor (2 ^ 23 * E + m) (2 ^ 23 * c) = 2 ^ 23 * Z.lxor E c + m.
Proof.
  intros Hm HE Hc. assert (S : forall e, 2 ^ 23 * e + m = Z.lxor m (2 ^ 23 * e)). { intros e. pose proof (@lxor_low F32 e m Hm) as L. change (mw F32) with 23 in L. rewrite <- L at 2. rewrite Z.lxor_assoc, Z.lxor_nilpotent, Z.lxor_0_r. reflexivity. }
  rewrite (S E), Z.lxor_assoc, S. f_equal. rewrite !(Z.mul_comm (2 ^ 23)), <- !Z.shiftl_mul_pow2 by lia. symmetry. apply Z.shiftl_lxor.
Qed.
(** sums of 2^23 and more: the bits of the sum, read as an integer *)
Lemma u32_bits nn x e : word 32 x -> isfin F32 x = true -> (-1 <= val F32 x <= 8589934592)%R -> 23 <= e <= 33 -> let s := rnd F32 (val F32 x + 4194304) in (bp e <= s < bp (e + 1))%R ->
  exists m, 2 ^ 23 <= m < 2 ^ 24 /\ s = (IZR m * bp (e - 23))%R /\ f32_u32l nn x = 2 ^ 23 * Z.lxor (127 + e) 149 + (m - 2 ^ 23).
Proof.
  intros Wx Fx H He s Hs. destruct (@sum22 nn x Wx Fx H) as (Wb & Fb & Vb). fold s in Vb.
  destruct (@fmt_mult F32 s e) as [m Em]. { rewrite <- Vb. apply fmt_val. } { apply Hs. } change (mw F32) with 23 in Em.
  assert (P := bpow_gt_0 radix2 (e - 23)). assert (E1 : bp e = (IZR (2 ^ 23) * bp (e - 23))%R) by (change (2 ^ 23) with (Zpower radix2 23); rewrite IZR_Zpower by lia; rewrite <- bpow_plus; f_equal; lia).
  assert (E2 : bp (e + 1) = (IZR (2 ^ 24) * bp (e - 23))%R) by (change (2 ^ 24) with (Zpower radix2 24); rewrite IZR_Zpower by lia; rewrite <- bpow_plus; f_equal; lia).
  assert (Hm : 2 ^ 23 <= m < 2 ^ 24). { rewrite E1, E2, Em in Hs. destruct Hs as [H1 H2]. apply Rmult_le_reg_r in H1; auto. apply Rmult_lt_reg_r in H2; auto. split; [now apply le_IZR|now apply lt_IZR]. }
  exists m. split; auto. split; auto. unfold f32_u32l. change 0x4a800000 with off22. set (b := fadd nn F32 x off22) in *. rewrite (@bits32 b e m Wb Fb ltac:(lia) Hm) by congruence.
  change off22 with (2 ^ 23 * 149). apply lxor_hi32; lia.
Qed.
Lemma u32_large nn x : word 32 x -> isfin F32 x = true -> (4194304 - / 4 <= val F32 x)%R -> ZnearestE (val F32 x) < 2 ^ 32 -> (f32_u32l nn x = ZnearestE (val F32 x) <-> val F32 x = 20971520%R).
Proof.
  intros Wx Fx L R. pose proof (near_in (val F32 x)) as N. set (T := ZnearestE (val F32 x)) in *. assert (RT : (IZR T <= 4294967295)%R) by (apply IZR_le; lia). set (v := val F32 x) in *.
  assert (H : (-1 <= val F32 x <= 8589934592)%R) by (fold v; lra). split.
  2: { intros V. assert (XE : x = 2 ^ 23 * (127 + 24) + (10485760 - 2 ^ 23)). { apply bits32; auto; try lia. fold v. rewrite V. change (bp (24 - 23)) with 2%R. lra. }
    assert (ET : T = 20971520) by (unfold T; fold v; rewrite V; apply near_int). rewrite ET, XE. clear. destruct nn; vm_compute; reflexivity. }
  intros Q. destruct (Rlt_le_dec v 4194304) as [S|S].
  { exfalso. destruct (@fmt_mult F32 v 21) as [m Em]. { apply fmt_val. } { change (bp 21) with 2097152%R. lra. } change (bp (21 - mw F32)) with (/ 4)%R in Em.
    assert (m = 16777215). { assert (16777215 <= m < 16777216); [|lia]. split; [apply le_IZR|apply lt_IZR]; lra. } subst m.
    assert (XE : x = 2 ^ 23 * (127 + 21) + (16777215 - 2 ^ 23)) by (apply bits32; auto; lia). assert (B : 4194304 <= f32_u32l nn x) by (rewrite XE; clear; destruct nn; vm_compute; discriminate).
    assert (B2 : f32_u32l nn x <> 4194304) by (rewrite XE; clear; destruct nn; vm_compute; discriminate). assert (T <= 4194304); [|lia]. apply le_IZR. assert (IZR T < IZR 4194305)%R by lra. apply lt_IZR in H0. apply IZR_le. lia. }
  set (s := rnd F32 (val F32 x + 4194304)). fold v in s.
  assert (G : forall k, 0 <= k < 40 -> generic_format radix2 (SpecFloat.fexp (prec F32) (emax F32)) (bp k)) by (intros k Hk; apply generic_format_bpow; unfold SpecFloat.fexp, SpecFloat.emin; cbn; lia).
  assert (S1 : (bp 23 <= s)%R) by (apply (@RoundSem.rnd_ge_fmt F32); [apply G; lia|change (bp 23) with 8388608%R; lra]).
  pose proof (rnd_rel F32 (v + 4194304)) as RR. fold s in RR. rewrite (Rabs_pos_eq (v + 4194304)) in RR by lra. assert (P1 : bp (- prec F32) = (/ 16777216)%R) by reflexivity. assert (P2 : (bp (emin F32 - 1) <= / 1024)%R) by (change (/ 1024)%R with (bp (-10)); apply bpow_le; cbn; lia). rewrite P1 in RR. apply Rabs_le_inv in RR.
  assert (P0 : (0 < s)%R) by (pose proof (bpow_gt_0 radix2 23); lra). destruct (mag radix2 s) as [e He]. specialize (He (Rgt_not_eq _ _ P0)). rewrite Rabs_pos_eq in He by lra. destruct He as [E1 E2].
  assert (L1 : 23 < e) by (apply (lt_bpow radix2); lra). assert (L2 : e - 1 < 33). { apply (lt_bpow radix2). apply Rle_lt_trans with (1 := E1). change (bp 33) with 8589934592%R. lra. }
  destruct (@u32_bits nn x (e - 1) Wx Fx H ltac:(lia)) as (m & Hm & Em & Eb). { fold v s. replace (e - 1 + 1) with e by lia. auto. } fold v s in Em. rewrite Eb in Q. clear Eb E1 E2 S1 G P1.
  assert (EX : forall k, 0 <= k <= 3 -> (bp (23 + k) <= v)%R -> exists q, v = (IZR q * bp k)%R). { intros k Hk Hl. destruct (@fmt_mult F32 v (23 + k)) as [q Eq]; auto. { apply fmt_val. } exists q. rewrite Eq. do 2 f_equal. change (mw F32) with 23. lia. }
  assert (QQ : (IZR (2 ^ 23 * Z.lxor (127 + (e - 1)) 149) + IZR m - 8388608 = IZR T)%R). { rewrite <- Q, !plus_IZR, minus_IZR. change (IZR (2 ^ 23)) with 8388608%R. ring. }
  assert (HmR : (8388608 <= IZR m <= 16777215)%R) by (split; apply IZR_le; lia).
  assert (D : e = 24 \/ e = 25 \/ e = 26 \/ e = 27 \/ e = 28 \/ e = 29 \/ e = 30 \/ e = 31 \/ e = 32 \/ e = 33) by lia.
  destruct D as [D|[D|[D|[D|[D|[D|[D|[D|[D|D]]]]]]]]]; subst e;
  match type of QQ with context [IZR (2 ^ 23 * Z.lxor ?a ?b)] => let z := eval vm_compute in (2 ^ 23 * Z.lxor a b) in change (2 ^ 23 * Z.lxor a b) with z in QQ end;
  match type of Em with context [bp (?a - 1 - 23)] => let k := eval vm_compute in (2 ^ (a - 1 - 23)) in change (bp (a - 1 - 23)) with (IZR k) in Em end; try (exfalso; lra).
  - destruct (EX 1) as [q Eq]; [lia|change (bp (23 + 1)) with 16777216%R; lra|]. change (bp 1) with 2%R in Eq.
    assert (ET : T = 2 * q). { unfold T. fold v. replace v with (IZR (2 * q)) by (rewrite mult_IZR; lra). apply near_int. }
    assert (Es : s = (v + 4194304)%R). { apply rnd_id. replace (v + 4194304)%R with (IZR (q + 2097152) * bp 1)%R by (rewrite plus_IZR; change (bp 1) with 2%R; clear - Eq; lra). apply (@RoundProofs.fmt_ok F32); [|cbn; lia]. change (prec F32) with 24. apply Z.abs_le. split; apply le_IZR; rewrite plus_IZR; [change (IZR (- 2 ^ 24)) with (-16777216)%R|change (IZR (2 ^ 24)) with 16777216%R]; lra. }
    assert (m = q + 2097152) by (apply eq_IZR; rewrite plus_IZR; lra). rewrite <- minus_IZR, <- plus_IZR in QQ || rewrite <- plus_IZR, <- minus_IZR in QQ. apply eq_IZR in QQ.
    assert (q = 10485760) by lia. subst q. lra.
  - destruct (EX 3) as [q Eq]; [lia|change (bp (23 + 3)) with 67108864%R; lra|]. change (bp 3) with 8%R in Eq.
    assert (ET : T = 8 * q). { unfold T. fold v. replace v with (IZR (8 * q)) by (rewrite mult_IZR; lra). apply near_int. }
    assert (Es : s = (v + 4194304)%R). { apply rnd_id. replace (v + 4194304)%R with (IZR (q + 524288) * bp 3)%R by (rewrite plus_IZR; change (bp 3) with 8%R; clear - Eq; lra). apply (@RoundProofs.fmt_ok F32); [|cbn; lia]. change (prec F32) with 24. apply Z.abs_le. split; apply le_IZR; rewrite plus_IZR; [change (IZR (- 2 ^ 24)) with (-16777216)%R|change (IZR (2 ^ 24)) with 16777216%R]; lra. }
    assert (m = q + 524288) by (apply eq_IZR; rewrite plus_IZR; lra). rewrite <- minus_IZR, <- plus_IZR in QQ || rewrite <- plus_IZR, <- minus_IZR in QQ. apply eq_IZR in QQ.
    exfalso. lia.
Qed.
Lemma near_lo v : (- / 2 <= v < 0)%R -> ZnearestE v = 0.
Proof.
  intros H. destruct (Req_dec v (- / 2)) as [->|N]. { rewrite near_opp. replace (/ 2)%R with (IZR 0 + / 2)%R by lra. rewrite near_half. reflexivity. }
  replace v with (IZR 0 + v)%R by (cbn; lra). apply near_close. apply Rabs_def1; lra.
Qed.
Lemma u32_neg nn x : word 32 x -> isfin F32 x = true -> (- / 2 <= val F32 x < 0)%R -> (f32_u32l nn x = ZnearestE (val F32 x) <-> (- / 8 <= val F32 x)%R).
Proof.
  intros Wx Fx H. rewrite (near_lo H). destruct (@sum22 nn x Wx Fx ltac:(lra)) as (Wb & Fb & Vb). destruct c22 as (Wc & Fc & Vc). unfold f32_u32l. change 0x4a800000 with off22.
  set (b := fadd nn F32 x off22) in *. set (v := val F32 x) in *.
  assert (A : rnd F32 (v + 4194304) = (IZR (ZnearestE ((v + 4194304) * 4)) * / 4)%R).
  { pose proof (@rnd_at F32 (v + 4194304) (-2)) as A. change (mw F32 + -2) with 21 in A. change (mw F32 + 1 + -2) with 22 in A. change (bp 21) with 2097152%R in A. change (bp 22) with 4194304%R in A. change (bp (-2)) with (/ 4)%R in A. change (bp (- -2)) with 4%R in A. apply A; [cbn; lia|lra]. }
  replace ((v + 4194304) * 4)%R with (4 * v + IZR (2 * 8388608))%R in A by (rewrite mult_IZR; lra). rewrite near_even in A. rewrite plus_IZR in A. change (IZR (2 * 8388608)) with 16777216%R in A. set (n := ZnearestE (4 * v)) in *.
  assert (E : Z.lxor b off22 = 0 <-> n = 0).
  { rewrite Z.lxor_eq_0_iff. split.
    - intros E. apply eq_IZR. rewrite E, Vc in Vb. lra.
    - intros E. rewrite E in A. assert (Vb' : val F32 b = 4194304%R) by lra. apply (@bits_inj F32); auto; [congruence|].
      pose proof (@val_sgnr F32 b Wb Fb) as VS. change (fsign (fw F32) off22) with false. destruct (fsign (fw F32) b); auto. exfalso. cbn [sgnr] in VS. pose proof (@mval_nonneg F32 (fmag (fw F32) b)). lra. }
  rewrite E. unfold n. split; intros K.
  - destruct (Rle_lt_dec (- / 8) v) as [Q|Q]; auto. exfalso. assert (ZnearestE (4 * v) < 0); [|lia]. pose proof (near_in (4 * v)) as N. rewrite K in N. cbn in N. lra.
  - apply near_lo. lra.
Qed.
Lemma u32_low nn x : word 32 x -> isfin F32 x = true -> (0 <= val F32 x < 4194304 - / 4)%R ->
  (f32_u32l nn x = ZnearestE (val F32 x) <-> (val F32 x <= / 4)%R \/ (/ 2 < val F32 x < 3 / 4)%R).
Proof.
  intros Wx Fx H. rewrite (f32_u32l_twice nn Wx Fx) by (change (IZR (2 ^ 22)) with 4194304%R; lra). set (v := val F32 x) in *. split.
  - intros E. pose proof (near_in v) as N1. pose proof (near_in (2 * v)) as N2. rewrite E in N2. set (t := ZnearestE v) in *.
    assert (T : 0 <= t <= 1). { split; [apply near_ge; lra|]. apply Z.lt_succ_r. apply lt_IZR. change (IZR (Z.succ 1)) with 2%R. lra. }
    assert (D : t = 0 \/ t = 1) by lia. destruct D as [D|D]; rewrite D in N1, N2; cbn [IZR IPR] in *; [left; lra|]. right. split.
    + destruct (Req_dec v (/ 2)) as [Q|Q]; [|lra]. exfalso. revert D. unfold t. rewrite Q. replace (/ 2)%R with (IZR 0 + / 2)%R by lra. rewrite near_half. discriminate.
    + destruct (Req_dec v (3 / 4)) as [Q|Q]; [|lra]. exfalso. revert E. rewrite D, Q. replace (2 * (3 / 4))%R with (IZR 1 + / 2)%R by lra. rewrite near_half. discriminate.
  - intros [Q|Q].
    + replace (ZnearestE v) with 0. 2: { symmetry. replace v with (IZR 0 + v)%R by (cbn; lra). apply near_close. apply Rabs_def1; lra. }
      destruct (Req_dec v (/ 4)) as [->|K]. { replace (2 * / 4)%R with (IZR 0 + / 2)%R by lra. apply near_half. }
      replace (2 * v)%R with (IZR 0 + 2 * v)%R by (cbn; lra). apply near_close. apply Rabs_def1; lra.
    + transitivity 1; [|symmetry].
      * replace (2 * v)%R with (IZR 1 + (2 * v - 1))%R by (cbn; lra). apply near_close. apply Rabs_def1; lra.
      * replace v with (IZR 1 + (v - 1))%R by (cbn; lra). apply near_close. apply Rabs_def1; lra.
Qed.

(** float -> uint32, decided: for every finite float x whose nearest integer (ties to even) is a uint32_t, the conversion returns
    that integer exactly when -1/8 <= x <= 1/4, or 1/2 < x < 3/4, or x = 20971520. Every other such float is converted wrongly. *)
Theorem C35_float_to_uint32_decided : forall X (HX : xty_ok X), esz (xT X) = 4%nat -> forall nn,
  let P := fun x y => isfin F32 x = true -> 0 <= ZnearestE (val F32 x) < 2 ^ 32 ->
    (y = ZnearestE (val F32 x) <-> (- / 8 <= val F32 x <= / 4)%R \/ (/ 2 < val F32 x < 3 / 4)%R \/ val F32 x = 20971520%R) in
  load_gives X (cvt_of_f X false nn) P /\ store_gives X (cvt_of_f X false nn) P.
Proof.
  intros X HX E nn P. apply both with (k := f32_u32l nn); auto.
  - intros v Hv. apply k_f32_u32; auto.
  - intros x Hx. rewrite (@xw4 X E) in *. split; [apply f32_u32l_word|]. intros Fx [T0 T1].
    assert (L : (- / 2 <= val F32 x)%R). { pose proof (near_in (val F32 x)) as N. assert (0 <= IZR (ZnearestE (val F32 x)))%R by (apply IZR_le; auto). lra. }
    destruct (Rlt_le_dec (val F32 x) 0) as [S|S]; [|destruct (Rlt_le_dec (val F32 x) (4194304 - / 4)) as [S'|S']].
    + rewrite (@u32_neg nn x Hx Fx) by lra. split; [lra|]. intros [D|[D|D]]; lra.
    + rewrite (@u32_low nn x Hx Fx) by lra. split; [intros [D|D]; lra|]. intros [D|[D|D]]; [left; lra|right; lra|lra].
    + rewrite (@u32_large nn x Hx Fx) by assumption. split; [auto|]. intros [D|[D|D]]; lra.
Qed.
Print Assumptions C35_float_to_uint32_decided.
Example C35_float_to_uint32_decided_case : let D := f4 sse2 in xty_ok D /\
  x_copy_to_cvt D (cvt_of_f D false nans0) Ok [[0x4ba00000; 0x3e800000; 0x3f800000; 0x3f200000]]%Z [9; 9; 9; 9]%Z 0 = Ok [20971520; 0; 2; 1]%Z.
Proof. intros D. split; [xok|vm_compute; reflexivity]. Qed.
