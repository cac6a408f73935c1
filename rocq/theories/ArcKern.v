(** The kernel b + b z P(z)/Q(z), z = b^2, of asin and atan: error relative to b. *)
From Coq Require Import ZifyBool ZifyNat Reals Ratan Lra.
From Flocq Require Import Core IEEE754.BinarySingleNaN IEEE754.Binary.
From Verif Require Import Base Cxx Spec X86Vec X86 X86Lemmas X86Proofs Fp FpLemmas FpOps FMath FMathProofs FLane FFields FManip FManipLanes PropManip Round RoundProofs RoundSem FArith PropArith FCvt PropHypot PropIeee PropLog FErr IvPoly TrigTab Trig TrigProofs SinPoly SinEval ArcSer RatPoly.
Set Implicit Arguments.
Open Scope Z_scope.

Definition eta (f : fmt) : R := bpow radix2 (emin f - 1).
Lemma eta_small f : (0 < eta f <= / 1024)%R.
Proof. split; [apply bpow_gt_0|]. change (/ 1024)%R with (bpow radix2 (-10)). apply bpow_le. destruct f; discriminate. Qed.
Lemma pr_small f : (0 < bpow radix2 (- prec f) <= / 1024)%R.
Proof. split; [apply bpow_gt_0|]. change (/ 1024)%R with (bpow radix2 (-10)). apply bpow_le. destruct f; discriminate. Qed.
Lemma cr_fin f s y : correct_round f s y -> (Rabs s <= 16)%R -> isfin f y = true /\ (Rabs (val f y - s) <= bpow radix2 (- prec f) * Rabs s + eta f)%R.
Proof.
  intros C B. pose proof (rnd_rel f s) as R. pose proof (eta_small f) as E. pose proof (pr_small f) as P. fold (eta f) in R. unfold correct_round in C. rewrite Rlt_bool_true in C.
  - destruct C as [F V]. rewrite V. auto.
  - replace (rnd f s) with (s + (rnd f s - s))%R by ring. eapply Rle_lt_trans; [apply Rabs_triang|]. pose proof (Rabs_pos s). assert (bpow radix2 (- prec f) * Rabs s <= 1 * Rabs s)%R by (apply Rmult_le_compat_r; lra).
    apply Rlt_le_trans with 64%R; [lra|]. change 64%R with (bpow radix2 6). apply bpow_le. clear. destruct f; discriminate.
Qed.
(** the error of rounding, as a multiple of 2^-140 *)
Lemma rr_ge f b : (bpow radix2 (- prec f) * (IZR b * UU) <= IZR (rr f b) * UU)%R.
Proof.
  pose proof UU_pos as UP. rewrite <- Rmult_assoc. apply Rmult_le_compat_r; [lra|]. unfold rr. pose proof (@shr_bounds b (prec f) ltac:(destruct f; discriminate)) as [_ S]. eapply Rle_trans; [exact S|]. apply IZR_le. lia.
Qed.

Lemma rr_three f mw : (bpow radix2 (- prec f) * (1 + 3 * (IZR mw * UU)) <= IZR (rr f (2 ^ 140 + 3 * mw)) * UU)%R.
Proof. assert (RR := rr_ge f (2 ^ 140 + 3 * mw)). rewrite plus_IZR, mult_IZR, Rmult_plus_distr_r, UU_inv, Rmult_assoc in RR. exact RR. Qed.
Lemma le140 mw : mw <= 2 ^ 140 -> (IZR mw * UU <= 1)%R.
Proof. intros H. rewrite <- UU_inv. apply Rmult_le_compat_r; [left; apply UU_pos|]. now apply IZR_le. Qed.
Section K.
Context {X : xty} (HX : xty_ok X) (HF : is_int (xT X) = false) (fm : bool) (nn : nans).
Local Notation f := (xf X).
Local Notation W := (fw f).
(** fmadd b w b *)
Lemma fma_rel b w mr K : word W b -> isfin f b = true -> word W w -> isfin f w = true -> (Rabs (val f b) <= 1)%R -> (0 <= mr <= 1)%R -> (Rabs (val f w) <= mr)%R -> (bpow radix2 (- prec f) * (1 + 3 * mr) <= K)%R ->
  isfin f (fmadd1 (X := X) nn fm b w b) = true /\
  (Rabs (val f (fmadd1 (X := X) nn fm b w b) - (val f b * val f w + val f b)) <= Rabs (val f b) * K + 3 * eta f)%R.
Proof.
  intros Wb Fb Ww Fw Bb Hm Mw RR. pose proof (Rabs_pos (val f b)) as B0. pose proof (Rabs_pos (val f w)) as W0. pose proof UU_pos as UP. pose proof (eta_small f) as E. pose proof (pr_small f) as P.
  set (u := bpow radix2 (- prec f)) in *.
  assert (A1 : (Rabs (val f b * val f w) <= Rabs (val f b) * mr)%R) by (rewrite Rabs_mult; apply Rmult_le_compat_l; lra).
  assert (A1' : (Rabs (val f b) * mr <= 1)%R) by (rewrite <- (Rmult_1_l 1); apply Rmult_le_compat; lra).
  assert (A0 : (0 <= Rabs (val f b) * mr)%R) by (apply Rmult_le_pos; lra).
  unfold fmadd1. destruct fm.
  - assert (C : correct_round f (val f b * val f w + val f b) (ffma nn f b w b)) by (apply (fma_ok nn Wb Ww Wb); split; auto).
    assert (A2 : (Rabs (val f b * val f w + val f b) <= Rabs (val f b) * (1 + mr))%R) by (eapply Rle_trans; [apply Rabs_triang|]; lra).
    destruct (@cr_fin _ _ _ C) as [F D]; [lra|]. split; auto. eapply Rle_trans; [exact D|]. fold u.
    assert (u * Rabs (val f b * val f w + val f b) <= Rabs (val f b) * (u * (1 + 3 * mr)))%R. { apply Rle_trans with (u * (Rabs (val f b) * (1 + mr)))%R; [apply Rmult_le_compat_l; lra|]. assert (0 <= u * (Rabs (val f b) * mr))%R by (assert (0 <= Rabs (val f b) * mr)%R by (apply Rmult_le_pos; lra); apply Rmult_le_pos; lra). lra. }
    assert (Rabs (val f b) * (u * (1 + 3 * mr)) <= Rabs (val f b) * K)%R by (apply Rmult_le_compat_l; auto). lra.
  - destruct (mul_ok nn Wb Ww) as (_ & C1 & _). specialize (C1 Fb Fw). destruct (@cr_fin _ _ _ (proj1 C1)) as [F1 D1]; [lra|]. clear C1.
    assert (Wp : word W (fmul nn f b w)) by apply fmul_word. set (p := fmul nn f b w) in *. clearbody p.
    destruct (add_ok nn Wp Wb) as (_ & C2 & _). specialize (C2 F1 Fb).
    assert (D1' : (u * Rabs (val f b * val f w) <= u * (Rabs (val f b) * mr))%R) by (apply Rmult_le_compat_l; lra). fold u in D1.
    assert (U1 : (u * (Rabs (val f b) * mr) <= / 1024 * (Rabs (val f b) * mr))%R) by (apply Rmult_le_compat_r; [apply Rmult_le_pos; lra|lra]).
    assert (A3 : (Rabs (val f p + val f b) <= Rabs (val f b) * (1 + 2 * mr) + eta f)%R).
    { replace (val f p + val f b)%R with ((val f p - val f b * val f w) + (val f b * val f w + val f b))%R by ring. eapply Rle_trans; [apply Rabs_triang|].
      assert (Rabs (val f b * val f w + val f b) <= Rabs (val f b) * mr + Rabs (val f b))%R by (eapply Rle_trans; [apply Rabs_triang|]; lra). lra. }
    destruct (@cr_fin _ _ _ (proj1 C2)) as [F2 D2]; [lra|]. split; auto. fold u in D2.
    replace (val f (fadd nn f p b) - (val f b * val f w + val f b))%R with ((val f (fadd nn f p b) - (val f p + val f b)) + (val f p - val f b * val f w))%R by ring. eapply Rle_trans; [apply Rabs_triang|].
    assert (D3 : (u * Rabs (val f p + val f b) <= u * (Rabs (val f b) * (1 + 2 * mr)) + eta f)%R). { apply Rle_trans with (u * (Rabs (val f b) * (1 + 2 * mr) + eta f))%R; [apply Rmult_le_compat_l; lra|]. assert (u * eta f <= 1 * eta f)%R by (apply Rmult_le_compat_r; lra). lra. }
    assert (Rabs (val f b) * (u * (1 + 3 * mr)) <= Rabs (val f b) * K)%R by (apply Rmult_le_compat_l; auto). lra.
Qed.

Variables (P Q : list Z) (T : list R) (TI : list (Z * Z)).
Definition kernB (f : fmt) (P Q : list Z) (TI : list (Z * Z)) (ma n : Z) (k l B2 M : Z) : Z * Z * bool :=
  let ez := Emul (f := f) 0 ma 0 ma in let mz := Mmul (f := f) ma ma in
  let '(ep, mp, o1) := pbound f ez mz P in let '(eq, mq, o2) := pbound f ez mz Q in
  let ed := Ediv f ep eq l M in let md := Mdiv f ep eq l M in
  (Emul (f := f) ez mz ed md, Mmul (f := f) mz md,
   o1 && o2 && (over f (cd (ma * ma)) && over f (M + qdiv ep eq l M) && over f (cd (mz * md)) && (eq <? l) && (0 <=? M) && (0 <=? ma) && (ma <=? 2 ^ 140) && (B2 * 2 ^ 140 <=? (M - absI 1 TI) * l) && (ma * ma <=? n * 2 ^ (280 - k)) && (Mmul (f := f) mz md <=? 2 ^ 140))).
Hypothesis HT : Forall2 iv TI T.
Variables (ma n k B c l B2 M ew mw : Z).
Hypotheses (RC : ratchk f P Q TI (Z.to_nat n) k B c l B2 = true) (KB : kernB f P Q TI ma n k l B2 M = (ew, mw, true)) (Hk : 0 <= k <= 280).
Lemma kern_rel b : word W b -> isfin f b = true -> (Rabs (val f b) <= IZR ma * UU)%R ->
  let z := fmul nn f b b in let y := fmadd1 (X := X) nn fm b (fmul nn f z (fdiv nn f (polevl1 (X := X) fm nn z P) (polevl1 (X := X) fm nn z Q))) b in
  isfin f y = true /\
  (Rabs (val f y - (val f b + val f b * (val f b * val f b * hornerR T (val f b * val f b)))) <= Rabs (val f b) * (IZR (ew + rr f (2 ^ 140 + 3 * mw)) * UU + IZR B / IZR l) + 3 * eta f)%R.
Proof.
  intros Wb Fb Bb z y. unfold kernB in KB. destruct (pbound _ _ _ P) as [[ep mp] o1] eqn:Q1. destruct (pbound _ _ _ Q) as [[eq mq] o2] eqn:Q2.
  apply pair_equal_spec in KB. destruct KB as [KB1 HO]. apply pair_equal_spec in KB1. destruct KB1 as [E1 E2]. rewrite !andb_true_iff in HO. destruct HO as ((-> & ->) & (((((((((O1 & O2) & O3) & O4) & O5) & O6) & O7) & O8) & O9) & O10)).
  apply Z.leb_le in O5, O6, O7, O8, O9, O10. apply Z.ltb_lt in O4. pose proof UU_pos as UP. pose proof UU_inv as UI.
  set (v := val f b) in *. assert (V2 : (0 <= v * v)%R) by nra.
  assert (Vz : (v * v <= INR (Z.to_nat n) * bpow radix2 (- k))%R).
  { apply Rle_trans with (IZR (ma * ma) * UU * UU)%R.
    - rewrite mult_IZR. replace (v * v)%R with (Rabs v * Rabs v)%R by (rewrite <- Rabs_mult; apply Rabs_pos_eq; auto). replace (IZR ma * IZR ma * UU * UU)%R with ((IZR ma * UU) * (IZR ma * UU))%R by ring. apply Rmult_le_compat; auto using Rabs_pos.
    - apply IZR_le in O9. rewrite (mult_IZR n) in O9. change 2 with (radix_val radix2) in O9 at 1. rewrite IZR_Zpower in O9 by lia. assert (N0 : 0 <= n). { destruct (Z.leb_spec 0 n) as [L|L]; auto. exfalso. clear -L RC. unfold ratchk in RC. rewrite !andb_true_iff in RC. assert (Z.to_nat n = 0%nat) by lia. rewrite H in RC. cbn in RC. intuition discriminate. }
      rewrite INR_IZR_INZ, Z2Nat.id by auto. replace (bpow radix2 (- k)) with (bpow radix2 (280 - k) * (UU * UU))%R by (unfold UU; rewrite <- !bpow_plus; f_equal; lia). rewrite <- Rmult_assoc, <- Rmult_assoc. apply Rmult_le_compat_r; [lra|]. apply Rmult_le_compat_r; lra. }
  destruct (rat_ok _ _ _ HT _ _ _ _ _ _ RC (conj V2 Vz)) as (L1 & L2 & L3 & L4).
  assert (Vh : (v * v <= / 2)%R). { clear -Vz RC. unfold ratchk in RC. rewrite !andb_true_iff in RC. destruct RC as ((((((((((_ & _) & _) & _) & H5) & _) & _) & H8) & _) & _) & _). apply Z.leb_le in H5, H8. eapply Rle_trans; [exact Vz|].
    rewrite INR_IZR_INZ. apply IZR_le in H8. rewrite mult_IZR in H8. change 2 with (radix_val radix2) in H8 at 2. rewrite IZR_Zpower in H8 by auto.
    assert (E : (bpow radix2 k * bpow radix2 (- k) = 1)%R) by (rewrite <- bpow_plus; replace (k + - k) with 0 by lia; reflexivity). pose proof (bpow_gt_0 radix2 (- k)) as B0. set (bb := bpow radix2 (- k)) in *. set (bc := bpow radix2 k) in *. clearbody bb bc.
    assert (IZR 2 * IZR (Z.of_nat (Z.to_nat n)) * bb <= bc * bb)%R by (apply Rmult_le_compat_r; lra). lra. }
  assert (Mq : (Rabs (polyR f P (v * v) / polyR f Q (v * v)) <= IZR M * UU)%R).
  { assert (NZ : polyR f Q (v * v) <> 0%R) by (intros E; rewrite E, Rabs_R0 in L1; lra). assert (PQ : (0 < Rabs (polyR f Q (v * v)))%R) by (now apply Rabs_pos_lt).
    assert (TB := @absI_ok 1 TI T (v * v) ltac:(lia) HT). change (bpow radix2 (- (1))) with (/ 2)%R in TB. specialize (TB ltac:(lra)).
    replace (polyR f P (v * v) / polyR f Q (v * v))%R with (hornerR T (v * v) + (polyR f P (v * v) - polyR f Q (v * v) * hornerR T (v * v)) / polyR f Q (v * v))%R by (field; auto).
    eapply Rle_trans; [apply Rabs_triang|]. assert (D : (Rabs ((polyR f P (v * v) - polyR f Q (v * v) * hornerR T (v * v)) / polyR f Q (v * v)) <= IZR (M - absI 1 TI) * UU)%R); [|rewrite minus_IZR in D; lra].
    unfold Rdiv. rewrite Rabs_mult, Rabs_inv. apply Rmult_le_reg_r with (Rabs (polyR f Q (v * v))); auto. rewrite Rmult_assoc, Rinv_l, Rmult_1_r by lra. eapply Rle_trans; [exact L3|].
    apply IZR_le in O8. rewrite !mult_IZR in O8. assert (Pl : (0 < IZR l)%R) by (apply Rmult_lt_reg_r with UU; lra).
    assert (B20 : (0 <= IZR B2)%R). { assert (0 <= IZR B2 * UU)%R by (eapply Rle_trans; [apply Rabs_pos|exact L3]). apply Rmult_le_reg_r with UU; lra. }
    set (d := IZR (M - absI 1 TI)) in *. assert (D0 : (0 <= d)%R). { assert (0 < IZR (2 ^ 140))%R by (apply IZR_lt; reflexivity). assert (0 <= d * IZR l)%R by nra. apply Rmult_le_reg_r with (IZR l); lra. }
    apply Rle_trans with (d * UU * (IZR l * UU))%R; [|apply Rmult_le_compat_l; [nra|auto]]. apply Rmult_le_compat_r with (r := (UU * UU)%R) in O8; [|nra]. replace (IZR B2 * IZR (2 ^ 140) * (UU * UU))%R with (IZR B2 * UU * (IZR (2 ^ 140) * UU))%R in O8 by ring. rewrite UI in O8. lra. }
  assert (Az := ap_mul nn (ap_exact _ Wb Fb O6 Bb) (ap_exact _ Wb Fb O6 Bb) O1). fold v z in Az.
  assert (Ap := ap_polevl fm nn _ Az Q1). assert (Aq := ap_polevl fm nn _ Az Q2).
  assert (Ad := ap_div nn Ap Aq O5 O4 L1 Mq O2). assert (Aw := ap_mul nn Az Ad O3). rewrite E1, E2 in Aw.
  subst y. set (w := fmul nn f z _) in *. clearbody w. clear Az Ap Aq Ad. destruct Aw as (Ww & Fw & Ew & Mw & _ & Pm).
  assert (B1 : (Rabs v <= 1)%R). { eapply Rle_trans; [exact Bb|]. rewrite <- UI. apply Rmult_le_compat_r; [lra|]. now apply IZR_le. }
  assert (M0 : (0 <= IZR mw * UU)%R) by (apply Rmult_le_pos; [now apply IZR_le|lra]). destruct (@fma_rel b w _ _ Wb Fb Ww Fw B1 (conj M0 (le140 (Z.le_trans _ _ _ (Z.eq_le_incl _ _ (eq_sym E2)) O10))) Mw (rr_three f mw)) as [F R]. split; auto. fold v in R.
  set (y := fmadd1 nn fm b w b) in *. clearbody y. set (h := hornerR T (v * v)) in *. set (pq := (polyR f P (v * v) / polyR f Q (v * v))%R) in *.
  replace (val f y - (v + v * (v * v * h)))%R with ((val f y - (v * val f w + v)) + v * ((val f w - v * v * pq) + (v * v * pq - v * v * h)))%R by ring.
  eapply Rle_trans; [apply Rabs_triang|]. rewrite Rabs_mult. assert (G : (Rabs (val f w - v * v * pq + (v * v * pq - v * v * h)) <= IZR ew * UU + IZR B / IZR l)%R) by (eapply Rle_trans; [apply Rabs_triang|]; lra).
  pose proof (Rabs_pos v) as V0. assert (Rabs v * Rabs (val f w - v * v * pq + (v * v * pq - v * v * h)) <= Rabs v * (IZR ew * UU + IZR B / IZR l))%R by (apply Rmult_le_compat_l; lra).
  rewrite plus_IZR. lra.
Qed.
End K.
Close Scope Z_scope.
