(** Error bounds of straight-line floating-point code.  [ap f x r e m]: the bit pattern [x] is a finite number that differs from the real [r] by
    at most e * 2^-140 and is at most m * 2^-140 in magnitude.  The rules below compute the bounds in Z. *)
From Coq Require Import ZifyBool ZifyNat Reals Lra.
From Flocq Require Import Core Relative IEEE754.BinarySingleNaN IEEE754.Binary.
From Verif Require Import Base Cxx Spec X86Vec X86 X86Lemmas X86Proofs Fp FpLemmas FpOps FMath FMathProofs FLane FFields FManip FManipLanes PropManip Round RoundProofs RoundSem FArith PropArith FCvt PropHypot PropIeee.
Set Implicit Arguments.
Open Scope Z_scope.

Definition UU : R := bpow radix2 (-140).
Lemma UU_pos : (0 < UU)%R. Proof. apply bpow_gt_0. Qed.
Lemma UU_inv : (IZR (2 ^ 140) * UU = 1)%R.
Proof. unfold UU. change (2 ^ 140) with (Zpower radix2 140). rewrite IZR_Zpower by lia. rewrite <- bpow_plus. reflexivity. Qed.

(** floor (a / 2^n), by shifting: evaluates much faster than a division; the match keeps open terms from unfolding *)
Definition zshr (a n : Z) : Z := match a with Z0 => 0 | Zpos _ | Zneg _ => Z.shiftr a n end.
Lemma zshr_div a n : 0 <= n -> zshr a n = a / 2 ^ n.
Proof. intros H. rewrite <- Z.shiftr_div_pow2 by auto. destruct a; auto. symmetry. apply Z.shiftr_0_l. Qed.
Definition rr (f : fmt) (b : Z) : Z := zshr b (prec f) + 2.
Definition cd (a : Z) : Z := zshr a 140 + 1.
Lemma rr_div f b : rr f b = b / 2 ^ prec f + 2. Proof. unfold rr. rewrite zshr_div; auto. destruct f; discriminate. Qed.
Lemma cd_div a : cd a = a / 2 ^ 140 + 1. Proof. unfold cd. now rewrite zshr_div by discriminate. Qed.
Definition over (f : fmt) (b : Z) : bool := b + rr f b <? 2 ^ 268.

Lemma div_up a d : 0 < d -> (IZR a / IZR d <= IZR (a / d + 1))%R.
Proof.
  intros Hd. assert (Pd : (0 < IZR d)%R) by now apply IZR_lt. apply Rmult_le_reg_r with (IZR d); auto. unfold Rdiv. rewrite Rmult_assoc, Rinv_l, Rmult_1_r by lra.
  rewrite <- mult_IZR. apply IZR_le. pose proof (Z_div_mod_eq_full a d). pose proof (Z.mod_pos_bound a d Hd). nia.
Qed.
Lemma cd_ok a : (IZR a * UU * UU <= IZR (cd a) * UU)%R.
Proof.
  apply Rmult_le_compat_r; [left; apply UU_pos|]. rewrite cd_div. eapply Rle_trans; [|apply div_up; reflexivity]. right. unfold Rdiv. f_equal.
Qed.
Lemma cd_ge0 a : 0 <= a -> 0 <= cd a. Proof. intros H. rewrite cd_div. pose proof (Z.div_pos a (2 ^ 140) H ltac:(reflexivity)). lia. Qed.
Lemma rr_ge0 f b : 0 <= b -> 0 <= rr f b. Proof. intros H. rewrite rr_div. assert (0 < 2 ^ prec f) by (destruct f; reflexivity). pose proof (Z.div_pos b _ H H0). lia. Qed.
Lemma rnd_rel f s : (Rabs (rnd f s - s) <= bpow radix2 (- prec f) * Rabs s + bpow radix2 (emin f - 1))%R.
Proof.
  assert (Pp : (0 < prec f)) by (destruct f; reflexivity).
  destruct (error_N_FLT radix2 (emin f) (prec f) Pp (fun x => negb (Z.even x)) s) as (eps & eta & E1 & E2 & _ & E). unfold rnd.
  assert (E' : round radix2 (SpecFloat.fexp (prec f) (emax f)) ZnearestE s = (s * (1 + eps) + eta)%R) by (rewrite <- E; reflexivity). rewrite E'.
  replace (s * (1 + eps) + eta - s)%R with (s * eps + eta)%R by ring. eapply Rle_trans; [apply Rabs_triang|]. rewrite Rabs_mult. apply Rplus_le_compat.
  - rewrite Rmult_comm. apply Rmult_le_compat_r; [apply Rabs_pos|]. eapply Rle_trans; [exact E1|]. right. rewrite bpow_plus. change (bpow radix2 1) with 2%R. lra.
  - eapply Rle_trans; [exact E2|]. right. unfold Z.sub. rewrite bpow_plus. change (bpow radix2 (- (1))) with (/ 2)%R. lra.
Qed.
Lemma rnd_err f s b : 0 <= b -> (Rabs s <= IZR b * UU)%R -> (Rabs (rnd f s - s) <= IZR (rr f b) * UU)%R.
Proof.
  intros Hb Hs. eapply Rle_trans; [apply rnd_rel|]. rewrite rr_div. replace (b / 2 ^ prec f + 2) with ((b / 2 ^ prec f + 1) + 1) by lia. rewrite plus_IZR, Rmult_plus_distr_r. apply Rplus_le_compat.
  - assert (Pp : 0 < 2 ^ prec f) by (destruct f; reflexivity). pose proof (div_up b Pp) as D. pose proof UU_pos.
    assert (Q : (bpow radix2 (- prec f) * IZR (2 ^ prec f) = 1)%R). { change (2 ^ prec f) with (Zpower radix2 (prec f)). rewrite IZR_Zpower by (destruct f; discriminate). rewrite <- bpow_plus. replace (- prec f + prec f) with 0 by lia. reflexivity. }
    pose proof (bpow_gt_0 radix2 (- prec f)) as P0. assert (0 < IZR (2 ^ prec f))%R by now apply IZR_lt.
    assert (E : (IZR b / IZR (2 ^ prec f) = bpow radix2 (- prec f) * IZR b)%R). { unfold Rdiv. rewrite Rmult_comm. f_equal. apply Rmult_eq_reg_r with (IZR (2 ^ prec f)); [|lra]. rewrite Q. apply Rinv_l. lra. }
    rewrite E in D. apply Rle_trans with (bpow radix2 (- prec f) * (IZR b * UU))%R; [apply Rmult_le_compat_l; lra|]. rewrite <- Rmult_assoc. apply Rmult_le_compat_r; lra.
  - rewrite Rmult_1_l. unfold UU. apply bpow_le. destruct f; cbn; lia.
Qed.

Definition ap (f : fmt) (x : Z) (r : R) (e m : Z) : Prop :=
  word (fw f) x /\ isfin f x = true /\ (Rabs (val f x - r) <= IZR e * UU)%R /\ (Rabs (val f x) <= IZR m * UU)%R /\ 0 <= e /\ 0 <= m.
(** a correctly rounded result *)
Lemma ap_round f s b r e y : 0 <= b -> 0 <= e -> over f b = true -> (Rabs s <= IZR b * UU)%R -> (Rabs (s - r) <= IZR e * UU)%R -> word (fw f) y -> correct_round f s y ->
  ap f y r (e + rr f b) (b + rr f b).
Proof.
  intros Hb He Ho Hs Hr Wy C. pose proof (@rnd_err f s b Hb Hs) as Q. pose proof (rr_ge0 f Hb) as R0. pose proof UU_pos as UP. unfold over in Ho.
  assert (B : (Rabs (rnd f s) <= IZR (b + rr f b) * UU)%R). { replace (rnd f s) with (s + (rnd f s - s))%R by ring. eapply Rle_trans; [apply Rabs_triang|]. rewrite plus_IZR, Rmult_plus_distr_r. lra. }
  unfold correct_round in C. rewrite Rlt_bool_true in C.
  - destruct C as [F V]. split; auto. split; auto. rewrite V. split; [|split; [exact B|lia]].
    replace (rnd f s - r)%R with ((rnd f s - s) + (s - r))%R by ring. eapply Rle_trans; [apply Rabs_triang|]. rewrite plus_IZR, Rmult_plus_distr_r. lra.
  - eapply Rle_lt_trans; [exact B|]. apply Rlt_le_trans with (IZR (2 ^ 268) * UU)%R. { apply Rmult_lt_compat_r; auto. apply IZR_lt. lia. }
    unfold UU. change (2 ^ 268) with (Zpower radix2 268). rewrite IZR_Zpower by lia. rewrite <- bpow_plus. apply bpow_le. destruct f; cbn; lia.
Qed.
Lemma ap_wk f x r e m e' m' : ap f x r e m -> e <= e' -> m <= m' -> ap f x r e' m'.
Proof.
  intros (A & B & C & D & E & F) He Hm. pose proof UU_pos. split; auto. split; auto. split; [|split; [|lia]].
  - eapply Rle_trans; [exact C|]. apply Rmult_le_compat_r; [lra|]. now apply IZR_le.
  - eapply Rle_trans; [exact D|]. apply Rmult_le_compat_r; [lra|]. now apply IZR_le.
Qed.
Lemma ap_exact f x m : word (fw f) x -> isfin f x = true -> 0 <= m -> (Rabs (val f x) <= IZR m * UU)%R -> ap f x (val f x) 0 m.
Proof. intros A B C D. split; auto. split; auto. split; [|split; auto; lia]. rewrite Rminus_diag_eq, Rabs_R0 by auto. lra. Qed.
(** the ideal value is bounded too *)
Lemma ap_ideal f x r e m : ap f x r e m -> (Rabs r <= IZR (m + e) * UU)%R.
Proof. intros (_ & _ & C & D & _). replace r with (val f x - (val f x - r))%R by ring. unfold Rminus at 1. eapply Rle_trans; [apply Rabs_triang|]. rewrite Rabs_Ropp, plus_IZR, Rmult_plus_distr_r. lra. Qed.
Definition emul (e1 m1 e2 m2 : Z) : Z := cd (m1 * e2 + (m2 + e2) * e1).
Lemma mul_real f x r e1 m1 y s e2 m2 : ap f x r e1 m1 -> ap f y s e2 m2 ->
  (Rabs (val f x * val f y) <= IZR (cd (m1 * m2)) * UU)%R /\ (Rabs (val f x * val f y - r * s) <= IZR (emul e1 m1 e2 m2) * UU)%R /\ 0 <= cd (m1 * m2) /\ 0 <= emul e1 m1 e2 m2.
Proof.
  intros Hx Hy. pose proof (ap_ideal Hy) as Is. destruct Hx as (_ & _ & Ex & Mx & Px & Qx), Hy as (_ & _ & Ey & My & Py & Qy). pose proof UU_pos as UP. split; [|split; [|split; [apply cd_ge0; nia|apply cd_ge0; nia]]].
  - rewrite Rabs_mult. eapply Rle_trans; [|apply cd_ok]. rewrite mult_IZR. replace (IZR m1 * IZR m2 * UU * UU)%R with ((IZR m1 * UU) * (IZR m2 * UU))%R by ring. apply Rmult_le_compat; auto using Rabs_pos.
  - replace (val f x * val f y - r * s)%R with (val f x * (val f y - s) + s * (val f x - r))%R by ring. eapply Rle_trans; [apply Rabs_triang|]. rewrite !Rabs_mult. unfold emul. eapply Rle_trans; [|apply cd_ok].
    rewrite plus_IZR, !mult_IZR. replace ((IZR m1 * IZR e2 + IZR (m2 + e2) * IZR e1) * UU * UU)%R with ((IZR m1 * UU) * (IZR e2 * UU) + (IZR (m2 + e2) * UU) * (IZR e1 * UU))%R by ring.
    apply Rplus_le_compat; apply Rmult_le_compat; auto using Rabs_pos.
Qed.
Section Ops.
Context (nn : nans) {f : fmt}.
Definition Emul e1 m1 e2 m2 : Z := emul e1 m1 e2 m2 + rr f (cd (m1 * m2)).
Definition Mmul m1 m2 : Z := cd (m1 * m2) + rr f (cd (m1 * m2)).
Lemma ap_mul x r e1 m1 y s e2 m2 : ap f x r e1 m1 -> ap f y s e2 m2 -> over f (cd (m1 * m2)) = true -> ap f (fmul nn f x y) (r * s) (Emul e1 m1 e2 m2) (Mmul m1 m2).
Proof.
  intros Hx Hy Ho. destruct (mul_real Hx Hy) as (B & E & P & Q). unfold Emul, Mmul. eapply ap_round; eauto. { apply fmul_word. }
  destruct Hx as (Wx & Fx & _), Hy as (Wy & Fy & _). destruct (mul_ok nn Wx Wy) as (_ & C & _). apply (C Fx Fy).
Qed.
Definition Eadd e1 m1 e2 m2 : Z := e1 + e2 + rr f (m1 + m2).
Definition Madd m1 m2 : Z := m1 + m2 + rr f (m1 + m2).
Lemma ap_add x r e1 m1 y s e2 m2 : ap f x r e1 m1 -> ap f y s e2 m2 -> over f (m1 + m2) = true -> ap f (fadd nn f x y) (r + s) (Eadd e1 m1 e2 m2) (Madd m1 m2).
Proof.
  intros (Wx & Fx & Ex & Mx & Px & Qx) (Wy & Fy & Ey & My & Py & Qy) Ho. unfold Eadd, Madd. apply ap_round with (val f x + val f y)%R; try lia; auto.
  - rewrite plus_IZR, Rmult_plus_distr_r. eapply Rle_trans; [apply Rabs_triang|]. lra.
  - replace (val f x + val f y - (r + s))%R with ((val f x - r) + (val f y - s))%R by ring. rewrite plus_IZR, Rmult_plus_distr_r. eapply Rle_trans; [apply Rabs_triang|]. lra.
  - apply fadd_word.
  - destruct (add_ok nn Wx Wy) as (_ & C & _). apply (C Fx Fy).
Qed.
Lemma ap_sub x r e1 m1 y s e2 m2 : ap f x r e1 m1 -> ap f y s e2 m2 -> over f (m1 + m2) = true -> ap f (fsub nn f x y) (r - s) (Eadd e1 m1 e2 m2) (Madd m1 m2).
Proof.
  intros (Wx & Fx & Ex & Mx & Px & Qx) (Wy & Fy & Ey & My & Py & Qy) Ho. unfold Eadd, Madd. apply ap_round with (val f x - val f y)%R; try lia; auto.
  - rewrite plus_IZR, Rmult_plus_distr_r. unfold Rminus. eapply Rle_trans; [apply Rabs_triang|]. rewrite Rabs_Ropp. lra.
  - replace (val f x - val f y - (r - s))%R with ((val f x - r) - (val f y - s))%R by ring. rewrite plus_IZR, Rmult_plus_distr_r. unfold Rminus at 1. eapply Rle_trans; [apply Rabs_triang|]. rewrite Rabs_Ropp. lra.
  - apply fsub_word.
  - destruct (sub_ok nn Wx Wy) as (_ & C & _). apply (C Fx Fy).
Qed.
(** fmadd, fused or not: the bound of the version that rounds twice *)
Definition Efma e1 m1 e2 m2 e3 m3 : Z := Eadd (Emul e1 m1 e2 m2) (Mmul m1 m2) e3 m3.
Definition Mfma m1 m2 m3 : Z := Madd (Mmul m1 m2) m3.
Definition ofma m1 m2 m3 : bool := over f (cd (m1 * m2)) && over f (Mmul m1 m2 + m3).
Lemma rr_mono a b : a <= b -> rr f a <= rr f b.
Proof. intros H. rewrite !rr_div. assert (0 < 2 ^ prec f) by (destruct f; reflexivity). pose proof (Z.div_le_mono a b (2 ^ prec f) H0 H). lia. Qed.
Lemma ap_fused x r e1 m1 y s e2 m2 c t e3 m3 : ap f x r e1 m1 -> ap f y s e2 m2 -> ap f c t e3 m3 -> over f (cd (m1 * m2) + m3) = true ->
  ap f (ffma nn f x y c) (r * s + t) (emul e1 m1 e2 m2 + e3 + rr f (cd (m1 * m2) + m3)) (cd (m1 * m2) + m3 + rr f (cd (m1 * m2) + m3)).
Proof.
  intros Hx Hy (Wc & Fc & Ec & Mc & Pc & Qc) Ho. destruct (mul_real Hx Hy) as (B & E & P & Q). destruct Hx as (Wx & Fx & _), Hy as (Wy & Fy & _).
  apply ap_round with (val f x * val f y + val f c)%R; try lia; auto.
  - rewrite plus_IZR, Rmult_plus_distr_r. eapply Rle_trans; [apply Rabs_triang|]. lra.
  - replace (val f x * val f y + val f c - (r * s + t))%R with ((val f x * val f y - r * s) + (val f c - t))%R by ring. rewrite plus_IZR, Rmult_plus_distr_r. eapply Rle_trans; [apply Rabs_triang|]. lra.
  - apply ffma_word.
  - apply (fma_ok nn Wx Wy Wc). split; auto.
Qed.
End Ops.
Lemma ap_fma nn X fm x r e1 m1 y s e2 m2 c t e3 m3 : let f := xf X in ap f x r e1 m1 -> ap f y s e2 m2 -> ap f c t e3 m3 -> ofma (f := f) m1 m2 m3 = true ->
  ap f (fmadd1 (X := X) nn fm x y c) (r * s + t) (Efma (f := f) e1 m1 e2 m2 e3 m3) (Mfma (f := f) m1 m2 m3).
Proof.
  intros f Hx Hy Hc Ho. unfold ofma in Ho. apply andb_prop in Ho. destruct Ho as [O1 O2]. unfold fmadd1. destruct fm.
  - assert (P : 0 <= cd (m1 * m2)) by apply (mul_real Hx Hy). assert (Q : 0 <= emul e1 m1 e2 m2) by apply (mul_real Hx Hy). assert (M3 : 0 <= m3) by apply Hc. pose proof (rr_ge0 f P) as R1.
    assert (R2 : rr f (cd (m1 * m2) + m3) <= rr f (Mmul (f := f) m1 m2 + m3)) by (apply rr_mono; unfold Mmul; lia).
    eapply ap_wk; [apply (ap_fused nn Hx Hy Hc)|..].
    + unfold over in *. unfold Mmul in *. lia.
    + unfold Efma, Eadd, Emul. lia.
    + unfold Mfma, Madd, Mmul in *. lia.
  - apply ap_add; auto. now apply ap_mul.
Qed.
(** constants *)
Definition mcst (f : fmt) (c : Z) : Z := let k := fmag (fw f) c in if 0 <=? mex f k + 140 then msig f k * 2 ^ (mex f k + 140) else msig f k / 2 ^ (- (mex f k + 140)) + 1.
Lemma ap_cst f c : word (fw f) c -> isfin f c = true -> ap f c (val f c) 0 (mcst f c).
Proof.
  intros Wc Fc. pose proof UU_pos as UP. pose proof (fmag_range (f := f) c) as R.
  assert (S0 : 0 <= msig f (fmag (fw f) c)). { unfold msig, mman. assert (0 < 2 ^ mw f) by (destruct f; reflexivity). pose proof (Z.mod_pos_bound (fmag (fw f) c) (2 ^ mw f) H). destruct (_ =? 0); lia. }
  unfold mcst. cbv zeta. set (e := mex f (fmag (fw f) c)). set (s := msig f (fmag (fw f) c)) in *.
  assert (V : Rabs (val f c) = (IZR s * bpow radix2 e)%R) by (rewrite (abs_val f Wc Fc); reflexivity).
  apply ap_exact; auto.
  - destruct (Z.leb_spec 0 (e + 140)). { apply Z.mul_nonneg_nonneg; auto. apply Z.pow_nonneg. lia. } pose proof (Z.div_pos s (2 ^ (- (e + 140))) S0 (pow2_pos (- (e + 140)) ltac:(lia))). lia.
  - rewrite V. replace (bpow radix2 e) with (bpow radix2 (e + 140) * UU)%R by (unfold UU; rewrite <- bpow_plus; f_equal; lia). rewrite <- Rmult_assoc. apply Rmult_le_compat_r; [lra|].
    destruct (Z.leb_spec 0 (e + 140)) as [H|H].
    + rewrite mult_IZR. right. f_equal. change 2 with (radix_val radix2). now rewrite IZR_Zpower.
    + eapply Rle_trans; [|apply div_up, pow2_pos; lia]. right. unfold Rdiv. f_equal. change 2 with (radix_val radix2). rewrite IZR_Zpower by lia. rewrite <- bpow_opp. f_equal. lia.
Qed.
Definition apok (f : fmt) (c : Z) : bool := (0 <=? c) && (c <? 2 ^ fw f) && (fmag (fw f) c <? finf (fw f)).
Lemma ap_const f c : apok f c = true -> ap f c (val f c) 0 (mcst f c).
Proof. unfold apok. intros H. assert (Wc : word (fw f) c) by (unfold word; lia). apply ap_cst; auto. rewrite (isfin_spec Wc). lia. Qed.
Close Scope Z_scope.
