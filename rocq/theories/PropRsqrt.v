(** C68: rsqrt of doubles; rcp and rsqrt of floats. *)
From Coq Require Import ZifyBool ZifyNat Reals Lra.
From Flocq Require Import Core Relative IEEE754.BinarySingleNaN IEEE754.Binary.
From Verif Require Import Base Cxx Spec X86Vec X86 X86Lemmas X86Proofs X86Masks X86Ops X86Shift Fp FpLemmas FpOps FKern FMath FMathProofs FLane FManip FManipLanes PropX86 PropFloat PropManip PropCvt PropRound FArith PropArith FCvt Hypot HypotProofs HypotSem PropHypot PropIeee FErr ArcKern PropArc HypNum HypSplit HypAcc Rsqrt RoundSem.
Set Implicit Arguments.

(** *** Specification *)
Definition rsqrt_spec (x r : Z) : Prop :=
  (isfin F64 x = true -> (0 < val F64 x)%R -> rel_close F64 (101 / 100) (/ sqrt (val F64 x)) r) /\
  (x = szero F64 false -> r = infs F64 false) /\ (x = szero F64 true -> r = infs F64 true) /\ (x = infs F64 false -> r = szero F64 false) /\
  (isnanb F64 x = true \/ x = infs F64 true \/ (isfin F64 x = true /\ (val F64 x < 0)%R) -> isnanb F64 r = true).

(** *** Proofs *)
Local Notation bp := (bpow radix2).
Local Notation one := 0x3ff0000000000000%Z.
Lemma sqrt_bp k : sqrt (bp (2 * k)) = bp k.
Proof. replace (2 * k)%Z with (k + k)%Z by lia. rewrite bpow_plus. apply sqrt_square. apply bpow_ge_0. Qed.
Lemma val_ge x : word 64 x -> isfin F64 x = true -> (0 < val F64 x)%R -> (bp (-1074) <= val F64 x)%R.
Proof.
  intros W F P. rewrite <- (round_generic radix2 (FLT_exp (-1074) 53) ZnearestE (val F64 x)) by apply (@fmt_val F64 x).
  destruct (Rle_or_lt (bp (-1074)) (round radix2 (FLT_exp (-1074) 53) ZnearestE (val F64 x))); auto.
  exfalso. rewrite round_generic in H by first [typeclasses eauto | apply (@fmt_val F64 x)].
  pose proof (@fmt_val F64 x) as G. apply (generic_format_ge_bpow radix2 (FLT_exp (-1074) 53) (-1074)) in G; auto; [lra|].
  intros e. unfold FLT_exp. lia.
Qed.
Lemma rnd_normal s : (bp (-1022) <= Rabs s)%R -> (Rabs (rnd F64 s - s) <= bp (-53) * Rabs s)%R.
Proof.
  intros H. assert (Pp : (0 < 53)%Z) by lia. pose proof (relative_error_N_FLT radix2 (-1074) 53 Pp (fun x => negb (Z.even x)) s H) as E.
  change (/ 2 * bp (-(53) + 1))%R with (/ 2 * bp (1 + -53))%R in E. rewrite bpow_plus in E. change (bp 1) with 2%R in E. change (rnd F64 s) with (round radix2 (FLT_exp (-1074) 53) (Znearest (fun x => negb (Z.even x))) s). lra.
Qed.
Lemma rsqrt_ok nn x : word 64 x -> rsqrt_spec x (fdiv nn F64 one (fsqrt nn F64 x)).
Proof.
  intros Wx. pose proof (@sqrt_ok nn F64 x Wx) as (S1 & S2 & S3 & S4). pose proof (fsqrt_word nn F64 x) as Ws. change (fw F64) with 64%Z in Ws.
  assert (W1 : word 64 one) by (split; [discriminate|reflexivity]). pose proof (@div_ok nn F64 one (fsqrt nn F64 x) W1 Ws) as (D1 & D2 & _ & _ & D5 & _ & D7 & _).
  assert (F1 : isfin F64 one = true) by reflexivity. assert (N1 : isnanb F64 one = false) by reflexivity. assert (Z1 : ~ iszero F64 one) by (intros [Q|Q]; discriminate).
  assert (V1 : val F64 one = 1%R) by apply (@fone_ok F64).
  split; [|split; [|split; [|split]]].
  - intros F P. destruct (S1 F ltac:(lra)) as (Fs & Vs). set (s := fsqrt nn F64 x) in *. set (X := val F64 x) in *. set (t := sqrt X) in *.
    assert (Tl : (bp (-537) <= t)%R). { rewrite <- (sqrt_bp (-537)). apply sqrt_le_1_alt. now apply val_ge. }
    assert (Th : (t <= bp 512)%R). { rewrite <- (sqrt_bp 512). apply sqrt_le_1_alt. pose proof (@val_lt_emax F64 x) as Q. pose proof (Rle_abs (val F64 x)). change (emax F64) with 1024%Z in Q. apply Rlt_le. eapply Rle_lt_trans; [exact H|exact Q]. }
    assert (P537 : (0 < bp (-537))%R) by apply bpow_gt_0.
    pose proof (@rnd_normal t) as E1. rewrite (Rabs_pos_eq t) in E1 by lra. specialize (E1 ltac:(eapply Rle_trans; [apply bpow_le with (e2 := (-537)%Z); clear; lia|exact Tl])).
    rewrite <- Vs in E1. set (S := val F64 s) in *.
    assert (U : (0 < bp (-53) <= / 4000)%R). { split; [apply bpow_gt_0|]. change (bp (-53)) with (/ 9007199254740992)%R. lra. } set (u := bp (-53)) in *.
    assert (Tp : (0 < t)%R) by lra. apply Rabs_le_inv in E1. assert (Sp : (0 < S)%R) by nra.
    assert (Sz : ~ iszero F64 s). { intros Q. apply (@iszero_mag F64 s Ws) in Q. apply (val_zero F64 Ws Fs) in Q. unfold S in Sp. lra. }
    destruct (D2 F1 Fs Sz) as (C & _). rewrite V1 in C. fold S in C.
    assert (Sl : (bp (-538) <= S)%R). { replace (-538)%Z with (-1 + -537)%Z by lia. rewrite bpow_plus. change (bp (-1)) with (/ 2)%R. nra. }
    assert (Sh : (S <= bp 513)%R). { replace 513%Z with (1 + 512)%Z by lia. rewrite bpow_plus. change (bp 1) with 2%R. nra. }
    assert (Q1 : (1 / S <= bp 538)%R). { unfold Rdiv. rewrite Rmult_1_l. change 538%Z with (- -538)%Z. rewrite bpow_opp. apply Rinv_le; auto. apply bpow_gt_0. }
    assert (Q2 : (bp (-513) <= 1 / S)%R). { unfold Rdiv. rewrite Rmult_1_l. change (-513)%Z with (- (513))%Z. rewrite bpow_opp. apply Rinv_le; auto. }
    assert (P513 : (0 < bp (-513))%R) by apply bpow_gt_0.
    destruct (@cr_lt F64 (1 / S) _ 538 C) as (Fr & Vr). { split; vm_compute; congruence. } { rewrite Rabs_pos_eq; lra. }
    split; auto. rewrite Vr. pose proof (@rnd_normal (1 / S)) as E2. rewrite (Rabs_pos_eq (1 / S)) in E2 by lra. specialize (E2 ltac:(eapply Rle_trans; [apply bpow_le with (e2 := (-513)%Z); clear; lia|exact Q2])).
    rewrite eps_u. change (bp (- prec F64)) with u. assert (It : (0 < / t)%R) by now apply Rinv_0_lt_compat. rewrite (Rabs_pos_eq (/ t)) by lra.
    fold u in E2. assert (B : (Rabs (1 / S - / t) <= (u + 2 * u * u) * / t)%R).
    { replace (1 / S - / t)%R with ((t - S) * / S * / t)%R by (field; lra). rewrite Rabs_mult, (Rabs_pos_eq (/ t)) by lra. apply Rmult_le_compat_r; [lra|].
      rewrite Rabs_mult, (Rabs_pos_eq (/ S)) by (apply Rlt_le, Rinv_0_lt_compat; auto). apply Rmult_le_reg_r with S; auto. rewrite Rmult_assoc, Rinv_l, Rmult_1_r by lra.
      apply Rabs_le. assert (u * u * u <= u * u * / 4000)%R by (apply Rmult_le_compat_l; nra). nra. }
    apply Rabs_le_inv in E2. apply Rabs_le_inv in B. apply Rabs_le. set (q := (1 / S)%R) in *. set (i := (/ t)%R) in *. assert (q <= i * (1 + / 1000))%R by nra. nra.
  - intros Z. rewrite (S2 (or_introl Z)) in *. rewrite Z in *. rewrite D5; auto; now left.
  - intros Z. rewrite (S2 (or_intror Z)) in *. rewrite Z in *. rewrite D5; auto; now right.
  - intros Z. rewrite (S3 Z) in *. rewrite Z in *. rewrite D7; auto; now left.
  - intros N. apply D1. right. now apply S4.
Qed.

Lemma each1_bind X a r g P Q : each1 X a r P -> (forall s, shaped X s -> each1 X s (g s) Q) -> each1 X a (s <- r;; g s) (fun x z => exists y, P x y /\ Q y z).
Proof.
  intros (s & -> & Ss & E) H. destruct (H s Ss) as (t & Et & St & E2). exists t. split; [exact Et|]. split; auto. intros i x Hx. destruct (E i x Hx) as (y & Hy & Py). destruct (E2 i y Hy) as (z & Hz & Qz). eauto.
Qed.
Lemma each1_imp X a r (P Q : Z -> Z -> Prop) : each1 X a r P -> (forall x y, P x y -> Q x y) -> each1 X a r Q.
Proof. intros (s & -> & Ss & E) H. exists s. split; auto. split; auto. intros i x Hx. destruct (E i x Hx) as (y & Hy & Py). eauto. Qed.

(** *** Theorems *)
(** rsqrt of doubles, every size and build: within 1.01 machine epsilons of 1 / sqrt x for every positive finite x, subnormal ones included *)
Theorem C68_rsqrt_double : forall nn X a, xty_ok X -> is_int (xT X) = false -> esz (xT X) = 8%nat -> shaped X a -> each1 X a (x_rsqrt_d X nn a) rsqrt_spec.
Proof.
  intros nn X a HX HF E8 Ha. pose proof (xw_fw HX HF) as E. unfold x_rsqrt_d. eapply each1_imp.
  - apply each1_bind with (P := fun x y => word (fw (xf X)) x /\ y = fsqrt nn (xf X) x) (Q := fun x y => y = fdiv nn (xf X) (fone (xw X)) x).
    + apply (@k_each X HX (v_sqrt X nn) (fsqrt nn (xf X))); auto; [intros; now apply l_sqrt|]. intros v Hv. rewrite E in Hv. auto.
    + intros s Ss. apply (@k_each X HX (v_rcp X nn) (fun x => fdiv nn (xf X) (fone (xw X)) x)); auto. intros; now apply l_rcp.
  - cbv beta. intros x z (y & (Wx & ->) & ->). rewrite (Ef8 E8) in *. rewrite (Ew8 E8). apply rsqrt_ok. exact Wx.
Qed.
Print Assumptions C68_rsqrt_double.
(** 4, the least subnormal number, +0, -0, inf *)
Example C68_rsqrt_case : xty_ok (d2 sse2) /\ x_rsqrt_d (d2 sse2) nans0 [[0x4010000000000000; 1]]%Z = Ok [[0x3fe0000000000000; 0x6180000000000000]]%Z /\
  x_rsqrt_d (d2 sse2) nans0 [[0; 0x8000000000000000]]%Z = Ok [[0x7ff0000000000000; 0xfff0000000000000]]%Z /\ x_rsqrt_d (d2 sse2) nans0 [[0x4008000000000000; 0x7ff0000000000000]]%Z = Ok [[0x3fe279a74590331d; 0]]%Z.
Proof. split; [xok|]. repeat split; vm_compute; reflexivity. Qed.
(** rcp and rsqrt of floats: every element of the result is the processor's estimate for the corresponding element of the argument, whatever the
    estimate, the size of the vector and its padding: no element is lost, duplicated or moved *)
Theorem C68_float_estimate : forall est X a, xty_ok X -> is_int (xT X) = false -> (forall x, word (xw X) x -> word (xw X) (est x)) -> shaped X a ->
  each1 X a (x_estimate X est a) (fun x y => y = est x).
Proof.
  intros est X a HX HF He Ha. apply (@k_each X HX (v_estimate est) est); auto. intros k b v Hk H. apply (@l_map X k est); auto.
Qed.
Print Assumptions C68_float_estimate.
Example C68_float_case : exists v, xty_ok (f4 sse2) /\ x_estimate (f4 sse2) (fun x => 0x7f000000 - x)%Z [[0x3f800000; 0x40000000; 0x40800000; 0x3f000000]]%Z = Ok v /\ elems (f4 sse2) v = [0x3f800000; 0x3f000000; 0x3e800000; 0x40000000]%Z.
Proof. eexists. split; [xok|]. split; vm_compute; reflexivity. Qed.
