(** double to int64 (cvt.hpp): the non-integral values between 2^51 and 2^52 (C47, C36). *)
From Coq Require Import ZifyBool ZifyNat Reals Lra.
From Flocq Require Import Core IEEE754.BinarySingleNaN IEEE754.Binary.
From Verif Require Import Base Cxx Spec X86Vec X86 X86Lemmas X86Proofs X86Ops Fp FpLemmas FpOps FMath FMathProofs FLane FFields FManip FManipLanes PropManip Round RoundProofs RoundLanes RoundSem FArith PropArith Cvt CvtProofs PropCvt PropIeee FErr HypSplit HypZero RintLarge CvtLarge.
Set Implicit Arguments.
Open Scope Z_scope.
Local Notation bp := (bpow radix2).

Lemma near_in r : (IZR (ZnearestE r) - / 2 <= r <= IZR (ZnearestE r) + / 2)%R.
Proof. pose proof (Znearest_half (fun x => negb (Z.even x)) r) as N. apply Rabs_le_inv in N. lra. Qed.
Lemma half_word_eq x h : word 64 x -> isfin F64 x = true -> 2 ^ 52 <= h < 2 ^ 53 -> val F64 x = (IZR h / 2)%R -> x = 0x432 * 2 ^ 52 + (h - 2 ^ 52).
Proof.
  intros Wx Fx Hh Vx. assert (E : 0x432 * 2 ^ 52 + (h - 2 ^ 52) = join F64 false 0x432 (h - 2 ^ 52)) by (unfold join, sbit; change (mw F64) with 52; lia). rewrite E.
  assert (B : 0 <= h - 2 ^ 52 < 2 ^ mw F64) by (change (mw F64) with 52; lia).
  apply (@bits_inj F64); auto; [apply join_word; cbn; lia|apply join_fin; cbn; lia| |].
  - rewrite join_val by (cbn; lia). rewrite Vx. cbn [sgnr]. change (emin F64 + 0x432 - 1) with (-1). change (mw F64) with 52. replace (h - 2 ^ 52 + 2 ^ 52) with h by lia. reflexivity.
  - rewrite join_sign by (cbn; lia). pose proof (@val_sgnr F64 x Wx Fx) as VS. destruct (fsign (fw F64) x); auto. exfalso. cbn [sgnr] in VS. pose proof (@mval_nonneg F64 (fmag (fw F64) x)). assert (0 < IZR h)%R by (apply IZR_lt; lia). lra.
Qed.

Section H.
Context (nn : nans) (x h : Z) (Wx : word 64 x) (Fx : isfin F64 x = true) (Vx : val F64 x = (IZR h / 2)%R) (Ho : Z.odd h = true).
Lemma c3 : word 64 exp51m3 /\ isfin F64 exp51m3 = true /\ val F64 exp51m3 = IZR (3 * 2 ^ 51) /\ exp51m3 = 0x433 * 2 ^ 52 + 2 ^ 51.
Proof. repeat split; try discriminate; try reflexivity. change exp51m3 with (join F64 false 0x433 (2 ^ 51)). rewrite join_val by (cbn; lia). cbn. lra. Qed.
Lemma sum_ok : (Rabs (IZR h) < IZR (2 ^ 53))%R -> let b := fadd nn F64 x exp51m3 in word 64 b /\ isfin F64 b = true /\ val F64 b = rnd F64 (IZR h / 2 + IZR (3 * 2 ^ 51)).
Proof.
  intros H b. destruct c3 as (Wc & Fc & Vc & _). pose proof (@addc nn x exp51m3 (conj Wx Fx) (conj Wc Fc)) as C. rewrite Vx, Vc in C. split; [exact (@fadd_word nn F64 _ _)|]. apply (@cr_lt F64 _ _ 65 C); [cbn; lia|].
  apply Rabs_def2 in H. change (IZR (3 * 2 ^ 51)) with 6755399441055744%R. change (IZR (2 ^ 53)) with 9007199254740992%R in H. change (bp 65) with 36893488147419103232%R. apply Rabs_le. lra.
Qed.
Lemma half_neg : - 2 ^ 53 < h < - 2 ^ 52 -> sgn 64 (f64_i64l nn x) <> ZnearestE (val F64 x).
Proof.
  intros H Q. destruct sum_ok as (Wb & Fb & Vb). { rewrite <- abs_IZR. apply IZR_lt. lia. }
  assert (E : (IZR h / 2 + IZR (3 * 2 ^ 51) = IZR (h + 3 * 2 ^ 52) / 2)%R). { rewrite plus_IZR. change (IZR (3 * 2 ^ 51)) with 6755399441055744%R. change (IZR (3 * 2 ^ 52)) with 13510798882111488%R. lra. }
  rewrite E in Vb. rewrite rnd_id in Vb. 2: { replace (IZR (h + 3 * 2 ^ 52) / 2)%R with (IZR (h + 3 * 2 ^ 52) * bp (-1))%R by reflexivity. apply (@fmt_ok F64); cbn; lia. }
  pose proof (@half_word_eq _ (h + 3 * 2 ^ 52) Wb Fb ltac:(lia) Vb) as EB. clear Vb Wb Fb E. destruct c3 as (_ & _ & _ & E3). unfold f64_i64l in Q. set (b := fadd nn F64 x exp51m3) in *. clearbody b. rewrite E3 in Q. rewrite EB in Q. clear EB b E3.
  match type of Q with sgn 64 (wrap 64 ?z) = _ => assert (Ez : z = h + 2 ^ 51) by lia; rewrite Ez in Q; clear Ez end. rewrite sgn_wrap in Q; [|lia|change (2 ^ (64 - 1)) with (2 ^ 63); lia].
  pose proof (near_in (val F64 x)) as N. rewrite <- Q, Vx in N. 
  assert (H2 : h = - 2 ^ 52 - 1). { rewrite plus_IZR in N. change (IZR (2 ^ 51)) with 2251799813685248%R in N. assert (-4503599627370497 <= h)%Z by (apply le_IZR; lra). lia. }
  rewrite Vx, H2 in Q. replace (IZR (- 2 ^ 52 - 1) / 2)%R with (IZR (- 2 ^ 51 - 1) + / 2)%R in Q by (rewrite !minus_IZR; change (IZR (- 2 ^ 52)) with (-4503599627370496)%R; change (IZR (- 2 ^ 51)) with (-2251799813685248)%R; lra).
  rewrite near_half in Q. cbn in Q. lia.
Qed.
Lemma half_pos : 2 ^ 52 < h < 2 ^ 53 -> (sgn 64 (f64_i64l nn x) = ZnearestE (val F64 x) <-> h = 2 ^ 52 + 1).
Proof.
  intros H. assert (XE : x = 0x432 * 2 ^ 52 + (h - 2 ^ 52)) by (apply half_word_eq; auto; lia).
  destruct (Z.le_gt_cases h (2 ^ 52 + 6)) as [L|L].
  { rewrite Vx. assert (D : h = 2 ^ 52 + 1 \/ h = 2 ^ 52 + 3 \/ h = 2 ^ 52 + 5) by (rewrite Z.odd_spec in Ho; destruct Ho as [q ->]; lia).
    assert (N : forall k, (IZR (2 * k + 1) / 2)%R = (IZR k + / 2)%R) by (intros k; rewrite plus_IZR, mult_IZR; lra).
    assert (RR : forall k, sgn 64 (f64_i64l k (0x432 * 2 ^ 52 + 1)) = 2 ^ 51 /\ sgn 64 (f64_i64l k (0x432 * 2 ^ 52 + 3)) = 2 ^ 51 + 1 /\ sgn 64 (f64_i64l k (0x432 * 2 ^ 52 + 5)) = 2 ^ 51 + 1) by (clear; intros k; destruct k; vm_compute; auto).
    destruct (RR nn) as (R1 & R2 & R3). clear RR.
    assert (NE : ZnearestE (IZR h / 2) = if h =? 2 ^ 52 + 1 then 2 ^ 51 else if h =? 2 ^ 52 + 3 then 2 ^ 51 + 2 else 2 ^ 51 + 2).
    { assert (Hk : exists k, h = 2 * k + 1 /\ (k = 2 ^ 51 \/ k = 2 ^ 51 + 1 \/ k = 2 ^ 51 + 2)) by (exists (h / 2); lia). destruct Hk as (k & -> & K). rewrite N, near_half. clear - K. destruct K as [->|[->| ->]]; reflexivity. }
    rewrite NE. clear NE N. destruct D as [D|[D|D]]; subst h; rewrite XE; clear XE.
    - replace (2 ^ 52 + 1 - 2 ^ 52) with 1 by lia. rewrite R1. split; auto.
    - replace (2 ^ 52 + 3 - 2 ^ 52) with 3 by lia. rewrite R2. clear. split; [|lia]. intros H. exfalso. revert H. vm_compute. discriminate.
    - replace (2 ^ 52 + 5 - 2 ^ 52) with 5 by lia. rewrite R3. clear. split; [|lia]. intros H. exfalso. revert H. vm_compute. discriminate. }
  split; [|lia]. intros Q. exfalso.
  destruct sum_ok as (Wb & Fb & Vb). { rewrite <- abs_IZR. apply IZR_lt. lia. } set (b := fadd nn F64 x exp51m3) in *.
  assert (HR : (4503599627370502 < IZR h < 9007199254740992)%R) by (split; apply IZR_lt; lia). change (IZR (3 * 2 ^ 51)) with 6755399441055744%R in Vb.
  pose proof (rnd_rel F64 (IZR h / 2 + 6755399441055744)) as R. rewrite (Rabs_pos_eq (IZR h / 2 + _)) in R by lra.
  assert (P1 : bp (- prec F64) = (/ 9007199254740992)%R) by reflexivity. assert (P2 : (bp (emin F64 - 1) <= / 1024)%R) by (change (/ 1024)%R with (bp (-10)); apply bpow_le; cbn; lia). rewrite P1 in R. apply Rabs_le_inv in R. rewrite <- Vb in R.
  destruct (@mult_of (val F64 b) 53 (@fmt_val F64 b)) as [j Ej]. { change (bp 53) with 9007199254740992%R. rewrite Rabs_pos_eq; lra. } change (bp (53 - 52)) with 2%R in Ej.
  assert (J : 2 ^ 52 <= j < 2 ^ 53) by (split; [apply le_IZR|apply lt_IZR]; change (IZR (2 ^ 52)) with 4503599627370496%R; change (IZR (2 ^ 53)) with 9007199254740992%R; lra).
  assert (EB : b = 0x434 * 2 ^ 52 + (j - 2 ^ 52)).
  { assert (E : 0x434 * 2 ^ 52 + (j - 2 ^ 52) = join F64 false 0x434 (j - 2 ^ 52)) by (unfold join, sbit; change (mw F64) with 52; lia). rewrite E. apply (@bits_inj F64); auto; [apply join_word; cbn; lia|apply join_fin; cbn; lia| |].
    - rewrite join_val by (cbn; lia). rewrite Ej. cbn [sgnr]. change (emin F64 + 0x434 - 1) with 1. change (mw F64) with 52. replace (j - 2 ^ 52 + 2 ^ 52) with j by lia. reflexivity.
    - rewrite join_sign by (cbn; lia). pose proof (@val_sgnr F64 b Wb Fb) as VS. destruct (fsign (fw F64) b); auto. exfalso. cbn [sgnr] in VS. pose proof (@mval_nonneg F64 (fmag (fw F64) b)). lra. }
  destruct c3 as (_ & _ & _ & E3). unfold f64_i64l in Q. fold b in Q. clearbody b. rewrite E3 in Q. rewrite EB in Q. clear EB E3.
  match type of Q with sgn 64 (wrap 64 ?z) = _ => assert (Ez : z = j - 2 ^ 51) by lia; rewrite Ez in Q; clear Ez end. rewrite sgn_wrap in Q; [|lia|change (2 ^ (64 - 1)) with (2 ^ 63); lia].
  pose proof (near_in (val F64 x)) as N. rewrite <- Q, Vx in N. rewrite minus_IZR in N. change (IZR (2 ^ 51)) with 2251799813685248%R in N. lra.
Qed.
End H.
