(** Accuracy of the sin and cos kernels: the error of the reduced argument and the assembly of the octants. *)
From Coq Require Import ZifyBool ZifyNat Reals Lra.
From Flocq Require Import Core IEEE754.BinarySingleNaN IEEE754.Binary.
From Verif Require Import Base Cxx Spec X86Vec X86 X86Lemmas X86Proofs X86Masks X86Ops X86Shift Fp FpLemmas FpOps FKern FMath FMathProofs FLane FFields FManip FManipLanes LogbProofs
  PropX86 PropFloat PropManip Cvt CvtProofs PropCvt Round RoundProofs RoundLanes RoundSem PropRound FArith PropArith FCvt Hypot HypotProofs HypotSem PropHypot PropIeee LogTab Log LogProofs PropLog TrigTab Trig TrigProofs PropTrig FErr IvPoly PiBound SinPoly SinEval SinRed.
Set Implicit Arguments.
Open Scope Z_scope.


(** *** The reduced argument: numbers *)
Lemma stp u s e t E S : (0 <= u)%R -> (Rabs e <= E)%R -> (Rabs s <= S)%R -> (Rabs (t - (s + e)) <= u * Rabs (s + e) + UU)%R -> (Rabs (t - s) <= E + u * (S + E) + UU)%R.
Proof.
  intros Hu He Hs Ht. replace (t - s)%R with ((t - (s + e)) + e)%R by ring. eapply Rle_trans; [apply Rabs_triang|]. pose proof (Rabs_triang s e) as T.
  assert (u * Rabs (s + e) <= u * (S + E))%R by (apply Rmult_le_compat_l; lra). lra.
Qed.
Definition TT1 (f : fmt) (fm : bool) (A : R) : R := match f with F32 => if fm then 15 / 10 * uu F32 else uu F32 * (A + 33 / 10) | F64 => uu F64 end%R.
Definition TT2 (f : fmt) (fm : bool) : R := match f with F32 => if fm then 13 / 10 * uu F32 else 17 / 10 * uu F32 | F64 => 8 / 10 * uu F64 end%R.
Definition TT3 (f : fmt) (fm : bool) : R := match f with F32 => if fm then 13 / 10 * uu F32 else 15 / 10 * uu F32 | F64 => 8 / 10 * uu F64 end%R.
Definition rderr (f : fmt) (fm : bool) (A : R) : R := match f with F32 => if fm then 42 / 10 * uu F32 else 66 / 10 * uu F32 + uu F32 * A | F64 => 27 / 10 * uu F64 end%R.
Lemma uu32 : uu F32 = (/ 16777216)%R. Proof. reflexivity. Qed.
Lemma uu64 : uu F64 = (/ 9007199254740992)%R. Proof. reflexivity. Qed.
Lemma UU_small : (0 < UU <= / 1000 * / 9007199254740992)%R.
Proof. split; [apply UU_pos|]. apply Rle_trans with (bpow radix2 (-63)). { unfold UU. apply bpow_le. lia. } change (bpow radix2 (-63)) with (/ 9223372036854775808)%R. lra. Qed.
Lemma num1 (f : fmt) (fm : bool) (A r k0 e1 t1 P0 : R) : (0 <= A <= 4194304)%R -> (Rabs r <= rmax f)%R -> (Rabs k0 <= 204 / 1000)%R -> (P0 = r + k0 - A)%R -> (Rabs e1 <= if fm then 0 else uu f * Rabs P0 + UU)%R ->
  (f = F64 -> e1 = 0%R) -> (Rabs (t1 - (r + k0 + e1)) <= uu f * Rabs (r + k0 + e1) + UU)%R -> (Rabs (t1 - (r + k0)) <= TT1 f fm A)%R.
Proof.
  intros HA Hr Hk EP He E0 Ht. pose proof UU_small as US. pose proof (Rabs_triang r k0) as T.
  assert (Hs : (Rabs (r + k0) <= rmax f + 204 / 1000)%R) by lra. assert (HP : (Rabs P0 <= A + (rmax f + 204 / 1000))%R). { rewrite EP. unfold Rminus at 1. eapply Rle_trans; [apply Rabs_triang|]. rewrite Rabs_Ropp, (Rabs_pos_eq A) by lra. lra. }
  destruct f; cbn [rmax TT1] in *; rewrite ?uu32, ?uu64 in *.
  - destruct fm.
    + pose proof (@stp (/ 16777216)%R _ _ _ _ _ ltac:(lra) He Hs Ht). lra.
    + assert (Hu : (/ 16777216 * Rabs P0 + UU <= / 16777216 * (A + (12 / 10 + 204 / 1000)) + UU)%R) by lra.
      pose proof (@stp (/ 16777216)%R _ _ _ _ _ ltac:(lra) (Rle_trans _ _ _ He Hu) Hs Ht). lra.
  - rewrite (E0 eq_refl) in *. pose proof (@stp (/ 9007199254740992)%R _ _ _ _ _ ltac:(lra) (Req_le _ _ Rabs_R0) Hs Ht). lra.
Qed.
Lemma num2 (f : fmt) (fm : bool) (A r k0 k1 t1 t2 e2 P1 : R) : (0 <= A <= 4194304)%R -> (Rabs r <= rmax f)%R -> (Rabs k0 <= 204 / 1000)%R -> (Rabs k1 <= 2 / 100000000)%R -> (P1 = k1 - k0)%R -> (Rabs (t1 - (r + k0)) <= TT1 f fm A)%R -> (Rabs e2 <= if fm then 0 else uu f * Rabs P1 + UU)%R ->
  (f = F64 -> e2 = 0%R) -> (Rabs (t2 - (r + k1 + (t1 - (r + k0)) + e2)) <= uu f * Rabs (r + k1 + (t1 - (r + k0)) + e2) + UU)%R -> (Rabs (t2 - (r + k1 + (t1 - (r + k0)))) <= TT2 f fm)%R.
Proof.
  intros HA Hr Hk Hk1 EP H1 He E0 Ht. pose proof UU_small as US. set (d1 := (t1 - (r + k0))%R) in *. clearbody d1.
  assert (Hs : (Rabs (r + k1 + d1) <= rmax f + 2 / 100000000 + TT1 f fm A)%R). { eapply Rle_trans; [apply Rabs_triang|]. pose proof (Rabs_triang r k1). lra. }
  assert (HP : (Rabs P1 <= 205 / 1000)%R). { rewrite EP. unfold Rminus. eapply Rle_trans; [apply Rabs_triang|]. rewrite Rabs_Ropp. lra. }
  destruct f; cbn [rmax TT1 TT2] in *; rewrite ?uu32, ?uu64 in *.
  - destruct fm.
    + pose proof (@stp (/ 16777216)%R _ _ _ _ _ ltac:(lra) He Hs Ht). lra.
    + assert (Hu : (/ 16777216 * Rabs P1 + UU <= / 16777216 * (205 / 1000) + UU)%R) by lra.
      pose proof (@stp (/ 16777216)%R _ _ _ _ _ ltac:(lra) (Rle_trans _ _ _ He Hu) Hs Ht). lra.
  - rewrite (E0 eq_refl) in *. pose proof (@stp (/ 9007199254740992)%R _ _ _ _ _ ltac:(lra) (Req_le _ _ Rabs_R0) Hs Ht). lra.
Qed.
Lemma num3 (f : fmt) (fm : bool) (A r k1 k2 d1 d2 z e3 P2 : R) : (0 <= A <= 4194304)%R -> (Rabs r <= rmax f)%R -> (Rabs k1 <= 2 / 100000000)%R -> (Rabs k2 <= 2 / 1000 * uu f)%R -> (P2 = k2 - k1)%R -> (Rabs d1 <= TT1 f fm A)%R -> (Rabs d2 <= TT2 f fm)%R ->
  (Rabs e3 <= if fm then 0 else uu f * Rabs P2 + UU)%R -> (Rabs (z - (r + k2 + d1 + d2 + e3)) <= uu f * Rabs (r + k2 + d1 + d2 + e3) + UU)%R -> (Rabs (z - (r + k2 + d1 + d2)) <= TT3 f fm)%R.
Proof.
  intros HA Hr Hk1 Hk2 EP H1 H2 He Ht. pose proof UU_small as US.
  assert (Hs : (Rabs (r + k2 + d1 + d2) <= rmax f + 2 / 1000 * uu f + TT1 f fm A + TT2 f fm)%R). { eapply Rle_trans; [apply Rabs_triang|]. pose proof (Rabs_triang r k2). pose proof (Rabs_triang (r + k2) d1). lra. }
  assert (U1 : (0 < uu f <= / 16777216)%R) by (destruct f; rewrite ?uu32, ?uu64; lra).
  assert (HP : (Rabs P2 <= 3 / 100000000)%R). { rewrite EP. unfold Rminus. eapply Rle_trans; [apply Rabs_triang|]. rewrite Rabs_Ropp. lra. }
  assert (He' : (Rabs e3 <= uu f * (3 / 100000000) + UU)%R). { destruct fm; [lra|]. assert (uu f * Rabs P2 <= uu f * (3 / 100000000))%R by (apply Rmult_le_compat_l; lra). lra. }
  destruct f; cbn [rmax TT1 TT2 TT3] in *; rewrite ?uu32, ?uu64 in *.
  - pose proof (@stp (/ 16777216)%R _ _ _ _ _ ltac:(lra) He' Hs Ht). destruct fm; lra.
  - pose proof (@stp (/ 9007199254740992)%R _ _ _ _ _ ltac:(lra) He' Hs Ht). lra.
Qed.
Lemma num4 (f : fmt) (fm : bool) (A r k2 d1 d2 z : R) : (0 <= A <= 4194304)%R -> (Rabs r <= rmax f)%R -> (Rabs k2 <= 2 / 1000 * uu f)%R -> (Rabs d1 <= TT1 f fm A)%R -> (Rabs d2 <= TT2 f fm)%R -> (Rabs (z - (r + k2 + d1 + d2)) <= TT3 f fm)%R ->
  (Rabs (z - r) <= rderr f fm A)%R /\ (Rabs z <= IZR (zmax f) * UU)%R.
Proof.
  intros HA Hr Hk2 H1 H2 H3. pose proof UU_small as US. set (d3 := (z - (r + k2 + d1 + d2))%R) in *. assert (Ez : z = (r + (k2 + d1 + d2 + d3))%R) by (unfold d3; ring). clearbody d3. subst z.
  assert (B : (Rabs (k2 + d1 + d2 + d3) <= rderr f fm A)%R).
  { eapply Rle_trans; [apply Rabs_triang|]. pose proof (Rabs_triang (k2 + d1) d2). pose proof (Rabs_triang k2 d1). destruct f; cbn [TT1 TT2 TT3 rderr] in *; rewrite ?uu32, ?uu64 in *; [destruct fm|]; lra. }
  split. { replace (r + (k2 + d1 + d2 + d3) - r)%R with (k2 + d1 + d2 + d3)%R by ring. exact B. }
  eapply Rle_trans; [apply Rabs_triang|]. pose proof UU_inv as I.
  assert (Z0 : (IZR (zmax f) * UU >= match f with F32 => 15 / 10 | F64 => 789 / 1000 end)%R).
  { destruct f; cbn [zmax].
    - rewrite mult_IZR. replace (2 ^ 140) with (2 * 2 ^ 139) in I by reflexivity. rewrite mult_IZR in I. lra.
    - assert (Q : IZR (789 * 2 ^ 140) = (789 * IZR (2 ^ 140))%R) by (now rewrite mult_IZR). assert (L : (IZR (789 * 2 ^ 140) <= IZR (1000 * (79 * 2 ^ 140 / 100)))%R) by (apply IZR_le; vm_compute; discriminate).
      rewrite !mult_IZR in L. assert (789 * IZR (2 ^ 140) * UU <= 1000 * IZR (79 * 2 ^ 140 / 100) * UU)%R by (apply Rmult_le_compat_r; lra). lra. }
  destruct f; cbn [rmax rderr] in *; rewrite ?uu32, ?uu64 in *; [destruct fm|]; lra.
Qed.

(** *** The reduced argument *)
Section Red.
Context {X : xty} (HX : xty_ok X) (HF : is_int (xT X) = false) (fm : bool) (nn : nans).
Local Notation f := (xf X).
Lemma dp_word i : (i < 3)%nat -> word (fw f) (dpc f i) /\ isfin f (dpc f i) = true.
Proof. intros H. destruct i as [|[|[|]]]; [| | |lia]; destruct f; (split; [vm_compute; split; congruence|vm_compute; reflexivity]). Qed.
(** the first two products are exact for doubles *)
Lemma prod_exact j i : 0 <= j <= 5341000 -> (i < 2)%nat -> f = F64 -> rnd f (IZR j * val f (dpc f i)) = (IZR j * val f (dpc f i))%R.
Proof.
  intros Hj Hi ->. apply rnd_id. assert (K : exists m e, (Z.abs m <= 2 ^ 23 /\ emin F64 <= e) /\ val F64 (dpc F64 i) = (IZR m * bpow radix2 e)%R).
  { destruct i as [|[|]]; [| |lia].
    - exists (-6588397), (-23). split; [split; vm_compute; discriminate|]. rewrite (@val_cst F64 (dpc F64 0) (-6588397 * 2 ^ 30) (-53)); [|vm_compute; split; congruence|reflexivity|reflexivity|reflexivity].
      rewrite mult_IZR. change (2 ^ 30) with (Zpower radix2 30). rewrite IZR_Zpower by lia. rewrite Rmult_assoc, <- bpow_plus. reflexivity.
    - exists (-1328173), (-45). split; [split; vm_compute; discriminate|]. rewrite (@val_cst F64 (dpc F64 1) (-1328173 * 2 ^ 32) (-77)); [|vm_compute; split; congruence|reflexivity|reflexivity|reflexivity].
      rewrite mult_IZR. change (2 ^ 32) with (Zpower radix2 32). rewrite IZR_Zpower by lia. rewrite Rmult_assoc, <- bpow_plus. reflexivity. }
  destruct K as (m & e & (Hm & He) & ->). rewrite <- Rmult_assoc, <- mult_IZR. apply fmt_ok; auto. rewrite Z.abs_mul. apply Z.le_trans with (5341000 * 2 ^ 23); [apply Z.mul_le_mono_nonneg; lia|]. vm_compute. discriminate.
Qed.
Lemma red_ok a : word (fw f) a -> isfin f a = true -> (0 <= val f a <= 4194304)%R -> f = F32 \/ good64 (X := X) = true \/ oct1 (X := X) nn a < 2 ^ 16 ->
  let j := oct1 (X := X) nn a in let z := red1 (X := X) fm nn a in
  0 <= j <= 5341000 /\ Z.even j = true /\ word (fw f) z /\ isfin f z = true /\ (Rabs (val f z - (val f a - IZR j * (PI / 4))) <= rderr f fm (val f a))%R /\ (Rabs (val f z) <= IZR (zmax f) * UU)%R.
Proof.
  intros Wa Fa Ba G. destruct (@oct_ok X HX HF nn a Wa Fa Ba) as (j & Ej & Rj & Pj & Br). cbv zeta. rewrite Ej in *. split; auto. split; auto.
  destruct (@cvtf_ok X HX HF nn j Rj G) as (Wy & Fy & Vy). destruct (cs_ok f) as (C0 & C1 & C2).
  destruct (@dp_word 0 ltac:(lia)) as [W0 F0]. destruct (@dp_word 1 ltac:(lia)) as [W1 F1]. destruct (@dp_word 2 ltac:(lia)) as [W2 F2].
  unfold red1. rewrite Ej, (xw_fw HX HF). fold (dpc f 0). fold (dpc f 1). fold (dpc f 2). cbv zeta. set (y := cvtf1 (X := X) nn j) in *. clearbody y.
  set (J := IZR j) in *. assert (BJ : (0 <= J <= 5341000)%R) by (clear -Rj; unfold J; split; apply IZR_le; lia).
  assert (X0 : f = F64 -> rnd f (J * val f (dpc f 0)) = (J * val f (dpc f 0))%R) by (intros; apply prod_exact; auto; lia).
  assert (X1 : f = F64 -> rnd f (J * val f (dpc f 1)) = (J * val f (dpc f 1))%R) by (intros; apply prod_exact; auto; lia).
  set (A := val f a) in *. set (r := (A - J * (PI / 4))%R) in *. unfold c0, c1, c2 in *. set (v0 := val f (dpc f 0)) in *. set (v1 := val f (dpc f 1)) in *. set (v2 := val f (dpc f 2)) in *.
  set (k0 := (J * (v0 + PI / 4))%R). set (k1 := (J * (v0 + v1 + PI / 4))%R). set (k2 := (J * (v0 + v1 + v2 + PI / 4))%R).
  assert (KB : forall c B, (Rabs c <= B)%R -> (Rabs (J * c) <= 5341000 * B)%R). { intros c B Hc. rewrite Rabs_mult, (Rabs_pos_eq J) by lra. apply Rmult_le_compat; try apply Rabs_pos; lra. }
  assert (K0 : (Rabs k0 <= 204 / 1000)%R). { eapply Rle_trans; [apply KB; exact C0|]. change (bpow radix2 (-30)) with (/ 1073741824)%R. lra. }
  assert (K1 : (Rabs k1 <= 2 / 100000000)%R). { eapply Rle_trans; [apply KB; exact C1|]. change (bpow radix2 (-48)) with (/ 281474976710656)%R. lra. }
  assert (K2 : (Rabs k2 <= 2 / 1000 * uu f)%R).
  { eapply Rle_trans; [apply KB; exact C2|]. clear. destruct f.
    - rewrite uu32. change (bpow radix2 (C2e F32 - 140)) with (/ 9444732965739290427392)%R. lra.
    - rewrite uu64. change (bpow radix2 (C2e F64 - 140)) with (/ 38685626227668133590597632)%R. lra. }
  clear C0 C1 C2 KB. pose proof UU_small as US. assert (RM : (rmax f <= 12 / 10)%R) by (clear; destruct f; cbn [rmax]; lra).
  assert (U1 : (0 < uu f <= / 16777216)%R) by (clear; destruct f; rewrite ?uu32, ?uu64; lra).
  assert (TB : (TT1 f fm A <= 1)%R /\ (TT2 f fm <= 1)%R). { clear -Ba. destruct f; cbn [TT1 TT2]; rewrite ?uu32, ?uu64; destruct fm; lra. }
  assert (PB : forall p, (Rabs p <= 5341000)%R -> (Rabs p <= 1073741824)%R) by (intros; lra).
  (* step 1 *)
  assert (S1 : (r + k0 = val f y * v0 + A)%R) by (rewrite Vy; unfold r, k0; ring).
  assert (B1 : (Rabs (r + k0) <= 2)%R) by (pose proof (Rabs_triang r k0); lra).
  assert (Q0 : (val f y * v0 = r + k0 - A)%R) by (rewrite S1; ring).
  assert (P1 : (Rabs (val f y * v0) <= 1073741824)%R). { rewrite Q0. unfold Rminus at 1. eapply Rle_trans; [apply Rabs_triang|]. rewrite Rabs_Ropp, (Rabs_pos_eq A) by lra. lra. }
  destruct (@fstep X HF fm nn y (dpc f 0) a (r + k0)%R Wy W0 Wa Fy F0 Fa S1 P1 ltac:(lra)) as (Wt1 & Ft1 & e1 & E1 & Z1 & D1).
  assert (N1 := @num1 f fm A r k0 e1 _ (val f y * v0)%R Ba Br K0 Q0 E1 (fun H => Z1 ltac:(rewrite Vy; exact (X0 H))) D1). clear E1 Z1 D1 P1 Q0.
  set (t1 := fmadd1 (X := X) nn fm y (dpc f 0) a) in *. clearbody t1. set (d1 := (val f t1 - (r + k0))%R) in *.
  (* step 2 *)
  assert (S2 : (r + k1 + d1 = val f y * v1 + val f t1)%R) by (rewrite Vy; unfold d1, r, k0, k1; ring).
  assert (B2 : (Rabs (r + k1 + d1) <= 4)%R) by (pose proof (Rabs_triang r k1); pose proof (Rabs_triang (r + k1) d1); lra).
  assert (Q1 : (val f y * v1 = k1 - k0)%R) by (rewrite Vy; unfold k1, k0; ring).
  assert (P1 : (Rabs (val f y * v1) <= 1073741824)%R). { rewrite Q1. unfold Rminus at 1. eapply Rle_trans; [apply Rabs_triang|]. rewrite Rabs_Ropp. lra. }
  destruct (@fstep X HF fm nn y (dpc f 1) t1 (r + k1 + d1)%R Wy W1 Wt1 Fy F1 Ft1 S2 P1 ltac:(lra)) as (Wt2 & Ft2 & e2 & E2 & Z2 & D2).
  assert (N2 := @num2 f fm A r k0 k1 (val f t1) _ e2 (val f y * v1)%R Ba Br K0 K1 Q1 N1 E2 (fun H => Z2 ltac:(rewrite Vy; exact (X1 H))) D2). fold d1 in N2. clear E2 Z2 D2 P1 Q1.
  set (t2 := fmadd1 (X := X) nn fm y (dpc f 1) t1) in *. clearbody t2. set (d2 := (val f t2 - (r + k1 + d1))%R) in *.
  (* step 3 *)
  assert (S3 : (r + k2 + d1 + d2 = val f y * v2 + val f t2)%R) by (rewrite Vy; unfold d2, k1, k2; ring).
  assert (B3 : (Rabs (r + k2 + d1 + d2) <= 6)%R) by (pose proof (Rabs_triang r k2); pose proof (Rabs_triang (r + k2) d1); pose proof (Rabs_triang (r + k2 + d1) d2); lra).
  assert (Q2 : (val f y * v2 = k2 - k1)%R) by (rewrite Vy; unfold k2, k1; ring).
  assert (P1 : (Rabs (val f y * v2) <= 1073741824)%R). { rewrite Q2. unfold Rminus at 1. eapply Rle_trans; [apply Rabs_triang|]. rewrite Rabs_Ropp. lra. }
  destruct (@fstep X HF fm nn y (dpc f 2) t2 (r + k2 + d1 + d2)%R Wy W2 Wt2 Fy F2 Ft2 S3 P1 ltac:(lra)) as (Wz & Fz & e3 & E3 & _ & D3).
  assert (N3 := @num3 f fm A r k1 k2 d1 d2 _ e3 (val f y * v2)%R Ba Br K1 K2 Q2 N1 N2 E3 D3).
  destruct (@num4 f fm A r k2 d1 d2 _ Ba Br K2 N1 N2 N3) as [Y1 Y2]. split; [exact Wz|]. split; [exact Fz|]. split; [exact Y1|exact Y2].
Qed.
End Red.

(** *** Octants *)
Lemma mod8 j : 0 <= j -> Z.even j = true -> exists q m, j = 8 * q + 2 * m /\ 0 <= q /\ 0 <= m < 4 /\ Z.testbit j 1 = Z.odd m /\ Z.testbit j 2 = (2 <=? m).
Proof.
  intros Hj E. exists (j / 8), ((j mod 8) / 2). pose proof (Z_div_mod_eq_full j 8) as D. pose proof (Z.mod_pos_bound j 8 ltac:(lia)) as R. pose proof (Z.div_pos j 8 Hj ltac:(lia)) as Q.
  assert (E8 : Z.even (j mod 8) = true). { rewrite <- E. rewrite D at 2. rewrite Z.even_add, Z.even_mul. cbn [Z.even orb]. destruct (Z.even (j mod 8)); reflexivity. }
  assert (T1 : Z.testbit j 1 = Z.testbit (j mod 8) 1) by (change 8 with (2 ^ 3); now rewrite Z.mod_pow2_bits_low by lia).
  assert (T2 : Z.testbit j 2 = Z.testbit (j mod 8) 2) by (change 8 with (2 ^ 3); now rewrite Z.mod_pow2_bits_low by lia).
  rewrite T1, T2. set (n := j mod 8) in *. clearbody n. clear T1 T2 E. assert (C : n = 0 \/ n = 2 \/ n = 4 \/ n = 6). { assert (C : n = 0 \/ n = 1 \/ n = 2 \/ n = 3 \/ n = 4 \/ n = 5 \/ n = 6 \/ n = 7) by lia. repeat destruct C as [C|C]; subst n; try discriminate; lia. }
  repeat destruct C as [C|C]; subst n; [change (0 / 2) with 0|change (2 / 2) with 1|change (4 / 2) with 2|change (6 / 2) with 3]; (split; [lia|split; [lia|split; [lia|split; reflexivity]]]).
Qed.
Definition sgm (b : bool) : R := if b then (-1)%R else 1%R.
Lemma sincos_oct j r : 0 <= j -> Z.even j = true -> let b2 := Z.testbit j 1 in let b4 := Z.testbit j 2 in
  sin (r + IZR j * (PI / 4)) = (sgm b4 * (if b2 then cos r else sin r))%R /\ cos (r + IZR j * (PI / 4)) = (sgm (xorb b4 b2) * (if b2 then sin r else cos r))%R.
Proof.
  intros Hj E. cbv zeta. destruct (mod8 Hj E) as (q & m & Ej & Hq & Hm & -> & ->).
  assert (A : (r + IZR j * (PI / 4) = (r + IZR m * (PI / 2)) + 2 * INR (Z.to_nat q) * PI)%R). { rewrite INR_IZR_INZ, Z2Nat.id by auto. rewrite Ej, plus_IZR, !mult_IZR. field. }
  rewrite A, sin_period, cos_period. clear A Ej E Hj.
  assert (C : m = 0 \/ m = 1 \/ m = 2 \/ m = 3) by lia. destruct C as [-> | [-> | [-> | ->]]]; cbn [Z.odd Z.leb Z.compare Pos.compare Pos.compare_cont xorb sgm].
  - replace (r + 0 * (PI / 2))%R with r by ring. split; ring.
  - replace (r + 1 * (PI / 2))%R with (PI / 2 + r)%R by ring. split. { rewrite <- cos_sin. ring. } replace (PI / 2 + r)%R with (- (- r - PI / 2))%R by ring. rewrite sin_cos. replace (PI / 2 + r)%R with (PI / 2 + r)%R by ring. rewrite cos_neg. replace (- r - PI / 2)%R with (- (PI / 2 + r))%R by ring. rewrite cos_neg. ring.
  - replace (r + 2 * (PI / 2))%R with (r + PI)%R by field. rewrite neg_sin, neg_cos. split; ring.
  - replace (r + 3 * (PI / 2))%R with ((PI / 2 + r) + PI)%R by field. rewrite neg_sin, neg_cos. rewrite <- cos_sin. split. { ring. } rewrite sin_cos. ring.
Qed.

Lemma sin_abs x : (Rabs (sin x) <= Rabs x)%R.
Proof.
  assert (P : forall t, (0 < t)%R -> (Rabs (sin t) <= t)%R). { intros t Ht. pose proof (sin_lt_x t Ht) as U. pose proof (sin_gt_x (- t) ltac:(lra)) as V. rewrite sin_neg in V. pose proof (SIN_bound t). destruct (Rlt_le_dec t 1).
    - pose proof PI2_1. pose proof (sin_gt_0 t Ht ltac:(lra)). rewrite Rabs_pos_eq; lra.
    - apply Rabs_le. lra. }
  destruct (Rtotal_order x 0) as [H|[H|H]].
  - rewrite (Rabs_left x) by auto. specialize (P (- x)%R ltac:(lra)). rewrite sin_neg, Rabs_Ropp in P. exact P.
  - subst x. rewrite sin_0, Rabs_R0. lra.
  - rewrite (Rabs_pos_eq x) by lra. now apply P.
Qed.
Lemma sin_lip a b : (Rabs (sin a - sin b) <= Rabs (a - b))%R.
Proof.
  rewrite form4, !Rabs_mult. rewrite (Rabs_pos_eq 2) by lra. pose proof (sin_abs ((a - b) / 2)) as S. pose proof (COS_bound ((a + b) / 2)) as C. assert (Rabs (cos ((a + b) / 2)) <= 1)%R by (apply Rabs_le; lra).
  replace (a - b)%R with (2 * ((a - b) / 2))%R at 2 by field. rewrite Rabs_mult, (Rabs_pos_eq 2) by lra. pose proof (Rabs_pos (sin ((a - b) / 2))). pose proof (Rabs_pos (cos ((a + b) / 2))). nra.
Qed.
Lemma cos_lip a b : (Rabs (cos a - cos b) <= Rabs (a - b))%R.
Proof. rewrite <- (sin_shift a), <- (sin_shift b). eapply Rle_trans; [apply sin_lip|]. right. replace (PI / 2 - a - (PI / 2 - b))%R with (- (a - b))%R by ring. apply Rabs_Ropp. Qed.
Lemma land_bit j k : 0 <= k -> Z.land j (2 ^ k) = if Z.testbit j k then 2 ^ k else 0.
Proof.
  intros Hk. apply Z.bits_inj'. intros n Hn. rewrite Z.land_spec, Z.pow2_bits_eqb by auto. destruct (Z.eqb_spec k n) as [<-|H]; destruct (Z.testbit j k) eqn:E; rewrite ?Z.pow2_bits_eqb, ?Z.bits_0, ?andb_true_r, ?andb_false_r by auto; auto.
  - now rewrite Z.eqb_refl.
  - symmetry. now apply Z.eqb_neq.
Qed.
Section Asm.
Context {X : xty} (HX : xty_ok X) (HF : is_int (xT X) = false) (fm : bool) (nn : nans).
Local Notation f := (xf X).
Lemma bit2_ok j : bit2_1 (X := X) j = if Z.testbit j 1 then 2 ^ (fw f - 1) else 0.
Proof. unfold bit2_1. rewrite (xw_fw HX HF). assert (E := @land_bit j 1 ltac:(lia)). change (2 ^ 1) with 2 in E. rewrite E. destruct (Z.testbit j 1); destruct f; reflexivity. Qed.
Lemma bit4_ok j : bit4_1 (X := X) j = if Z.testbit j 2 then 2 ^ (fw f - 1) else 0.
Proof. unfold bit4_1. rewrite (xw_fw HX HF). change 4 with (2 ^ 2). rewrite land_bit by lia. destruct (Z.testbit j 2); destruct f; reflexivity. Qed.
Lemma flip_if b x r e : word (fw f) x -> isfin f x = true -> (Rabs (val f x - r) <= e)%R -> let y := Z.lxor x (if b : bool then 2 ^ (fw f - 1) else 0) in word (fw f) y /\ isfin f y = true /\ (Rabs (val f y - sgm b * r) <= e)%R.
Proof.
  intros Wx Fx Hx. cbv zeta. destruct b; cbn [sgm].
  - fold (flip f x). destruct (flip_ok Wx) as (A & B & C & _). rewrite B, C. split; auto. split; auto. replace (- val f x - -1 * r)%R with (- (val f x - r))%R by ring. now rewrite Rabs_Ropp.
  - rewrite Z.lxor_0_r. split; auto. split; auto. now rewrite Rmult_1_l.
Qed.
Lemma lxor_if b c : Z.lxor (if b : bool then 2 ^ (fw f - 1) else 0) (if c : bool then 2 ^ (fw f - 1) else 0) = if xorb b c then 2 ^ (fw f - 1) else 0.
Proof. destruct b, c; cbn [xorb]; now rewrite ?Z.lxor_nilpotent, ?Z.lxor_0_l, ?Z.lxor_0_r. Qed.
Definition terr (A : R) : R := (IZR (perr f) * UU + rderr f fm A)%R.
Lemma kern_err a : word (fw f) a -> isfin f a = true -> (0 <= val f a <= 4194304)%R -> f = F32 \/ good64 (X := X) = true \/ oct1 (X := X) nn a < 2 ^ 16 ->
  (forall s, let y := esin1 (X := X) fm nn (sbit f s) a in word (fw f) y /\ isfin f y = true /\ (Rabs (val f y - sgm s * sin (val f a)) <= terr (val f a))%R) /\
  (let y := ecos1 (X := X) fm nn a in word (fw f) y /\ isfin f y = true /\ (Rabs (val f y - cos (val f a)) <= terr (val f a))%R).
Proof.
  intros Wa Fa Ba G. destruct (red_ok HX HF fm nn Wa Fa Ba G) as (Rj & Ej & Wz & Fz & Dz & Bz). unfold esin1, ecos1. cbv zeta. set (j := oct1 (X := X) nn a) in *. set (z := red1 (X := X) fm nn a) in *. clearbody j z.
  set (r := (val f a - IZR j * (PI / 4))%R) in *. rewrite bit2_ok, bit4_ok.
  destruct (sincos_oct r (proj1 Rj) Ej) as [ES EC]. replace (r + IZR j * (PI / 4))%R with (val f a) in ES, EC by (unfold r; ring). rewrite ES, EC.
  destruct (psin_err HX HF fm nn Wz Fz Bz) as (Ws & Fs & Es). destruct (pcos_err HX HF fm nn Wz Fz Bz) as (Wc & Fc & Ec).
  set (vs := psin1 (X := X) fm nn z) in *. set (vc := pcos1 (X := X) fm nn z) in *. clearbody vs vc.
  assert (Es' : (Rabs (val f vs - sin r) <= terr (val f a))%R). { replace (val f vs - sin r)%R with ((val f vs - sin (val f z)) + (sin (val f z) - sin r))%R by ring. eapply Rle_trans; [apply Rabs_triang|]. pose proof (sin_lip (val f z) r). unfold terr. lra. }
  assert (Ec' : (Rabs (val f vc - cos r) <= terr (val f a))%R). { replace (val f vc - cos r)%R with ((val f vc - cos (val f z)) + (cos (val f z) - cos r))%R by ring. eapply Rle_trans; [apply Rabs_triang|]. pose proof (cos_lip (val f z) r). unfold terr. lra. }
  assert (Nz : negb ((if Z.testbit j 1 then 2 ^ (fw f - 1) else 0) =? 0) = Z.testbit j 1) by (destruct (Z.testbit j 1), f; reflexivity). rewrite Nz. clear Es Ec. split.
  - intros s. assert (Esb : sbit f s = if s then 2 ^ (fw f - 1) else 0) by reflexivity. rewrite Esb, lxor_if.
    assert (Q : (sgm s * (sgm (Z.testbit j 2) * (if Z.testbit j 1 then cos r else sin r)) = sgm (xorb (Z.testbit j 2) s) * (if Z.testbit j 1 then cos r else sin r))%R) by (destruct s, (Z.testbit j 2); cbn [sgm xorb]; ring). rewrite Q.
    destruct (Z.testbit j 1); apply flip_if; auto.
  - rewrite lxor_if. destruct (Z.testbit j 1); apply flip_if; auto.
Qed.
End Asm.
