(** Error analysis of hypot (C66). *)
From Coq Require Import ZifyBool ZifyNat Reals Lra.
From Flocq Require Import Core Relative Mult_error IEEE754.BinarySingleNaN IEEE754.Binary.
From Verif Require Import Base Cxx Spec X86Vec X86 X86Lemmas X86Proofs X86Ops Fp FpLemmas FpOps FMath FMathProofs FLane FFields FManip FManipLanes PropManip RoundSem FArith PropArith FCvt Hypot HypotProofs HypotSem PropHypot PropIeee FErr ArcKern HypNum.
Set Implicit Arguments.
Open Scope Z_scope.
Local Notation bp := (bpow radix2).

(** *** Rounding facts *)
Section F.
Context (f : fmt).
Local Notation fx := (SpecFloat.fexp (prec f) (emax f)).
Lemma fmt_bp k : emin f <= k < emax f -> generic_format radix2 fx (bp k).
Proof. intros H. apply generic_format_bpow. unfold SpecFloat.fexp, SpecFloat.emin. unfold emin in H. destruct f; cbn in *; lia. Qed.
Lemma rnd_abs_le s k : emin f <= k < emax f -> (Rabs s <= bp k)%R -> (Rabs (rnd f s) <= bp k)%R.
Proof. intros Hk H. unfold rnd. apply abs_round_le_generic; try typeclasses eauto; auto. now apply fmt_bp. Qed.
Lemma cr_lt s y k : correct_round f s y -> emin f <= k < emax f -> (Rabs s <= bp k)%R -> isfin f y = true /\ val f y = rnd f s.
Proof. intros C Hk H. unfold correct_round in C. rewrite Rlt_bool_true in C; auto. eapply Rle_lt_trans; [apply (rnd_abs_le _ Hk H)|]. apply bpow_lt. lia. Qed.
(** scaling a number by a power of two is exact, or has at most half the least positive number of error *)
Lemma scale_exact v k : generic_format radix2 fx v -> (bp (emin f + prec f - 1) <= Rabs (v * bp k))%R \/ 0 <= k -> generic_format radix2 fx (v * bp k).
Proof.
  intros Fv H. destruct (Req_dec v 0) as [-> | Nz]. { rewrite Rmult_0_l. apply generic_format_0. }
  assert (Pp : FLX.Prec_gt_0 (prec f)) by (destruct f; reflexivity).
  destruct H as [H | H]; [|exact (@mult_bpow_pos_exact_FLT radix2 (emin f) (prec f) v k Fv H)].
  apply (@mult_bpow_exact_FLT radix2 (emin f) (prec f) v k Fv).
  assert (M : emin f + prec f - 1 < mag radix2 (v * bp k)). { apply mag_gt_bpow. exact H. } rewrite mag_mult_bpow in M by auto. lia.
Qed.
Lemma scale_err v k : generic_format radix2 fx v -> (Rabs (rnd f (v * bp k) - v * bp k) <= eta f)%R.
Proof.
  intros Fv. destruct (Rle_or_lt (bp (emin f + prec f - 1)) (Rabs (v * bp k))) as [H|H].
  - rewrite rnd_id by (apply scale_exact; auto). rewrite Rminus_diag_eq, Rabs_R0 by auto. apply bpow_ge_0.
  - unfold rnd. eapply Rle_trans. { apply error_le_half_ulp. apply fexp_correct. destruct f; reflexivity. }
    assert (Q : ulp radix2 fx (v * bp k) = bp (emin f)). { apply (@ulp_FLT_small radix2 (emin f) (prec f) ltac:(destruct f; reflexivity)). eapply Rlt_trans; [exact H|]. apply bpow_lt. lia. }
    rewrite Q. unfold eta, Z.sub. rewrite bpow_plus. change (bp (- (1))) with (/ 2)%R. lra.
Qed.
End F.

(** *** Double: the split *)
Section D.
Context {X : xty} (HX : xty_ok X) (HF : is_int (xT X) = false) (E8 : esz (xT X) = 8%nat) (nn : nans) (v : R) (Hv : (bp (-450) <= v <= bp 510)%R).
Local Notation good y := (word 64 y /\ isfin F64 y = true).
Lemma v_pos : (0 < v)%R. Proof. pose proof (bpow_gt_0 radix2 (-450)). lra. Qed.
Lemma e150_1 : (eta F64 <= e150 * v)%R.
Proof.
  apply Rle_trans with (bp (-140) * bp (-450))%R. { rewrite <- bpow_plus. apply bpow_le. cbn. lia. }
  apply Rle_trans with (e150 * bp (-450))%R. { apply Rmult_le_compat_r; [apply bpow_ge_0|]. unfold e150. cbn -[IZR]. lra. }
  apply Rmult_le_compat_l; [unfold e150; lra|lra].
Qed.
Lemma v2_low : (bp (-900) <= v * v <= bp 1020)%R.
Proof. pose proof v_pos. pose proof (bpow_gt_0 radix2 (-450)). split. { change (-900) with (-450 + -450). rewrite bpow_plus. apply Rmult_le_compat; lra. } change 1020 with (510 + 510). rewrite bpow_plus. apply Rmult_le_compat; lra. Qed.
Lemma e150_2 : (eta F64 <= e150 * (v * v))%R.
Proof.
  apply Rle_trans with (bp (-140) * bp (-900))%R. { rewrite <- bpow_plus. apply bpow_le. cbn. lia. }
  apply Rle_trans with (e150 * bp (-900))%R. { apply Rmult_le_compat_r; [apply bpow_ge_0|]. unfold e150. cbn -[IZR]. lra. }
  apply Rmult_le_compat_l; [unfold e150; lra|apply v2_low].
Qed.
Lemma u53_bp : bp (- prec F64) = u53. Proof. reflexivity. Qed.
(** results in units of v and of v^2 *)
Lemma unit_near s y m : (0 < m)%R -> (eta F64 <= e150 * m)%R -> (Rabs (y - s * m) <= bp (- prec F64) * Rabs (s * m) + eta F64)%R -> exists r, y = (r * m)%R /\ near r s.
Proof.
  intros Hm He H. exists (y / m)%R. split; [field; lra|]. unfold near. rewrite u53_bp in H. replace (y - s * m)%R with ((y / m - s) * m)%R in H by (field; lra). rewrite !Rabs_mult, (Rabs_right m) in H by lra.
  apply Rmult_le_reg_r with m; lra.
Qed.
Lemma lin_op s y : (Rabs s <= 1073741824)%R -> correct_round F64 (s * v) y -> word 64 y -> good y /\ exists r, val F64 y = (r * v)%R /\ near r s.
Proof.
  intros Hs C Wy. pose proof v_pos. assert (B : (Rabs (s * v) <= bp 540)%R). { rewrite Rabs_mult, (Rabs_right v) by lra. change 540 with (30 + 510). rewrite bpow_plus. apply Rmult_le_compat; [apply Rabs_pos|lra|exact Hs|lra]. }
  destruct (@cr_lt F64 _ _ 540 C ltac:(cbn; lia) B) as [F V]. split; auto. apply unit_near; auto using e150_1. rewrite V. apply rnd_rel.
Qed.
Lemma quad_op s y : (Rabs s <= 4)%R -> correct_round F64 (s * (v * v)) y -> word 64 y -> good y /\ exists r, val F64 y = (r * (v * v))%R /\ near r s.
Proof.
  intros Hs C Wy. pose proof v_pos. pose proof v2_low as V2. assert (B : (Rabs (s * (v * v)) <= bp 1022)%R). { assert (0 < v * v)%R by nra. rewrite Rabs_mult, (Rabs_right (v * v)) by lra. change 1022 with (2 + 1020). rewrite bpow_plus. change (bp 2) with 4%R. apply Rmult_le_compat; try lra. apply Rabs_pos. }
  destruct (@cr_lt F64 _ _ 1022 C ltac:(cbn; lia) B) as [F V]. split; auto. apply unit_near; auto using e150_2; [nra|]. rewrite V. apply rnd_rel.
Qed.
Lemma near_refl s : near s s. Proof. unfold near. rewrite Rminus_diag_eq, Rabs_R0 by auto. pose proof (Rabs_pos s). unfold u53, e150. lra. Qed.
Lemma near_bound r s b : near r s -> (Rabs s <= b)%R -> (Rabs r <= b + / 1000 * b + / 1000)%R.
Proof. unfold near. intros N B. replace r with (s + (r - s))%R by ring. eapply Rle_trans; [apply Rabs_triang|]. pose proof (Rabs_pos s). unfold u53, e150 in *. lra. Qed.
Lemma mulc a b : good a -> good b -> correct_round F64 (val F64 a * val F64 b) (fmul nn F64 a b).
Proof. intros [Wa Fa] [Wb Fb]. destruct (@mul_ok nn F64 a b Wa Wb) as (_ & C & _). exact (proj1 (C Fa Fb)). Qed.
Lemma addc a b : good a -> good b -> correct_round F64 (val F64 a + val F64 b) (fadd nn F64 a b).
Proof. intros [Wa Fa] [Wb Fb]. destruct (@add_ok nn F64 a b Wa Wb) as (_ & C & _). exact (proj1 (C Fa Fb)). Qed.
Lemma subc a b : good a -> good b -> correct_round F64 (val F64 a - val F64 b) (fsub nn F64 a b).
Proof. intros [Wa Fa] [Wb Fb]. destruct (@sub_ok nn F64 a b Wa Wb) as (_ & C & _). exact (proj1 (C Fa Fb)). Qed.
Lemma fma_quad fm a b c p q r : good a -> good b -> good c -> val F64 a = (p * v)%R -> val F64 b = (q * v)%R -> val F64 c = (r * (v * v))%R -> (Rabs (p * q) <= 3 / 2)%R -> (Rabs r <= 3 / 2)%R ->
  good (fmadd1 (X := X) nn fm a b c) /\ exists z s, near z (p * q) /\ near s (z + r) /\ val F64 (fmadd1 (X := X) nn fm a b c) = (s * (v * v))%R.
Proof.
  intros Ga Gb Gc Va Vb Vc B1 B2. unfold fmadd1. rewrite (Ef8 E8). destruct fm.
  - pose proof (@fma_ok F64 nn a b c (proj1 Ga) (proj1 Gb) (proj1 Gc) (conj (proj2 Ga) (conj (proj2 Gb) (proj2 Gc)))) as C. rewrite Va, Vb, Vc in C.
    replace (p * v * (q * v) + r * (v * v))%R with ((p * q + r) * (v * v))%R in C by ring. destruct (@quad_op (p * q + r)%R _ ltac:(eapply Rle_trans; [apply Rabs_triang|lra]) C (@ffma_word nn F64 _ _ _)) as (G & s & V & N).
    split; auto. exists (p * q)%R, s. auto using near_refl.
  - pose proof (mulc Ga Gb) as C. rewrite Va, Vb in C. replace (p * v * (q * v))%R with ((p * q) * (v * v))%R in C by ring. destruct (@quad_op (p * q)%R _ ltac:(lra) C (@fmul_word nn F64 _ _)) as (G1 & z & V1 & N1).
    pose proof (near_bound N1 B1) as Bz. pose proof (addc G1 Gc) as C2. rewrite V1, Vc in C2. rewrite <- Rmult_plus_distr_r in C2. destruct (@quad_op (z + r)%R _ ltac:(eapply Rle_trans; [apply Rabs_triang|lra]) C2 (@fadd_word nn F64 _ _)) as (G & s & V & N).
    split; auto. exists z, s. auto.
Qed.
Lemma fms_quad fm a b c p q r : good a -> good b -> good c -> val F64 a = (p * v)%R -> val F64 b = (q * v)%R -> val F64 c = (r * (v * v))%R -> (Rabs (p * q) <= 3 / 2)%R -> (Rabs r <= 3 / 2)%R ->
  good (fmsub1 (X := X) nn fm a b c) /\ exists z s, near z (p * q) /\ near s (z - r) /\ val F64 (fmsub1 (X := X) nn fm a b c) = (s * (v * v))%R.
Proof.
  intros Ga Gb Gc Va Vb Vc B1 B2. unfold fmsub1. rewrite (Ef8 E8). destruct fm.
  - destruct (@fneg_ok F64 c (proj1 Gc)) as (Wn & Fn & Vn & _). rewrite Vc in Vn. assert (Gn : good (fneg (fw F64) c)) by (split; [exact Wn|rewrite Fn; apply Gc]).
    pose proof (@fma_ok F64 nn a b _ (proj1 Ga) (proj1 Gb) Wn (conj (proj2 Ga) (conj (proj2 Gb) (proj2 Gn)))) as C. rewrite Va, Vb, Vn in C.
    replace (p * v * (q * v) + - (r * (v * v)))%R with ((p * q - r) * (v * v))%R in C by ring. destruct (@quad_op (p * q - r)%R _ ltac:(unfold Rminus; eapply Rle_trans; [apply Rabs_triang|rewrite Rabs_Ropp; lra]) C (@ffma_word nn F64 _ _ _)) as (G & s & V & N).
    split; auto. exists (p * q)%R, s. auto using near_refl.
  - pose proof (mulc Ga Gb) as C. rewrite Va, Vb in C. replace (p * v * (q * v))%R with ((p * q) * (v * v))%R in C by ring. destruct (@quad_op (p * q)%R _ ltac:(lra) C (@fmul_word nn F64 _ _)) as (G1 & z & V1 & N1).
    pose proof (near_bound N1 B1) as Bz. pose proof (subc G1 Gc) as C2. rewrite V1, Vc in C2. rewrite <- Rmult_minus_distr_r in C2. destruct (@quad_op (z - r)%R _ ltac:(unfold Rminus; eapply Rle_trans; [apply Rabs_triang|rewrite Rabs_Ropp; lra]) C2 (@fsub_word nn F64 _ _)) as (G & s & V & N).
    split; auto. exists z, s. auto.
Qed.
Lemma split_ok fm x : good x -> val F64 x = v ->
  good (fmul nn F64 x x) /\ good (split_l (X := X) nn fm x) /\
  exists h l, val F64 (fmul nn F64 x x) = (h * (v * v))%R /\ val F64 (split_l (X := X) nn fm x) = (l * (v * v))%R /\
    (Rabs (h + l - 1) <= 11 / 10 * u53)%R /\ (Rabs l <= 22 / 10 * u53)%R /\ (Rabs (h - 1) <= u53 + e150)%R.
Proof.
  intros Gx Vx. unfold split_l. rewrite (Ef8 E8).
  assert (Gc : good 0x41a0000002000000) by (split; [unfold word; lia|reflexivity]). assert (Vc : val F64 0x41a0000002000000 = 134217729%R) by (unfold val; cbn; unfold F2R; cbn; lra).
  assert (G2 : good 0x4000000000000000) by (split; [unfold word; lia|reflexivity]). assert (V2 : val F64 0x4000000000000000 = 2%R) by (unfold val; cbn; unfold F2R; cbn; lra).
  set (xc := fmul nn F64 x 0x41a0000002000000). pose proof (mulc Gx Gc) as C1. rewrite Vx, Vc in C1. rewrite Rmult_comm in C1. destruct (@lin_op 134217729%R _ ltac:(rewrite Rabs_right; lra) C1 (@fmul_word nn F64 _ _)) as (Gxc & c & Ec & Nc). fold xc in Gxc, Ec.
  assert (Bc : (134217728 <= c <= 134217730)%R). { unfold near in Nc. rewrite (Rabs_right 134217729) in Nc by lra. apply Rabs_imp in Nc. unfold u53, e150 in Nc. lra. }
  set (d := fsub nn F64 x xc). pose proof (subc Gx Gxc) as C2. rewrite Vx, Ec in C2. replace (v - c * v)%R with ((1 - c) * v)%R in C2 by ring. destruct (@lin_op (1 - c)%R _ ltac:(apply Rabs_le; lra) C2 (@fsub_word nn F64 _ _)) as (Gd & d' & Ed & Nd). fold d in Gd, Ed.
  assert (Bd : (1 - / 60000000 <= d' + c <= 1 + / 60000000)%R). { unfold near in Nd. rewrite (Rabs_left (1 - c)) in Nd by lra. apply Rabs_imp in Nd. unfold near in Nc. rewrite (Rabs_right 134217729) in Nc by lra. apply Rabs_imp in Nc. unfold u53, e150 in *. lra. }
  set (xh := fadd nn F64 d xc). pose proof (addc Gd Gxc) as C3. rewrite Ed, Ec in C3. rewrite <- Rmult_plus_distr_r in C3. destruct (@lin_op (d' + c)%R _ ltac:(apply Rabs_le; lra) C3 (@fadd_word nn F64 _ _)) as (Gh & xh' & Eh & Nh). fold xh in Gh, Eh.
  pose proof (@xh_near c d' xh' Nc Nd Nh) as Bh. pose proof (Rabs_imp _ _ Bh) as Bh'.
  set (xl := fsub nn F64 x xh). pose proof (subc Gx Gh) as C4. rewrite Vx, Eh in C4. replace (v - xh' * v)%R with ((1 - xh') * v)%R in C4 by ring. destruct (@lin_op (1 - xh')%R _ ltac:(apply Rabs_le; lra) C4 (@fsub_word nn F64 _ _)) as (Gl & xl' & El & Nl). fold xl in Gl, El.
  destruct (@xl_small c d' xh' xl' Nc Nd Nh Nl) as [Bl _]. pose proof (Rabs_imp _ _ Bl) as Bl'.
  set (h := fmul nn F64 x x). pose proof (mulc Gx Gx) as C5. rewrite Vx in C5. rewrite <- (Rmult_1_l (v * v)) in C5. destruct (@quad_op 1%R _ ltac:(rewrite Rabs_R1; lra) C5 (@fmul_word nn F64 _ _)) as (Ghh & hh & Ehh & Nhh). fold h in Ghh, Ehh.
  assert (Bhh : (Rabs hh <= 3 / 2)%R). { unfold near in Nhh. rewrite Rabs_R1 in Nhh. apply Rabs_imp in Nhh. apply Rabs_le. unfold u53, e150 in *. lra. }
  destruct (@fms_quad fm xh xh h xh' xh' hh Gh Gh Ghh Eh Eh Ehh) as (Gl1 & q1 & l1 & Nq1 & Nl1 & El1); auto. { rewrite Rabs_mult. assert (Rabs xh' <= 101 / 100)%R by (apply Rabs_le; lra). pose proof (Rabs_pos xh'). nra. }
  set (t := fmul nn F64 xl 0x4000000000000000). pose proof (mulc Gl G2) as C6. rewrite El, V2 in C6. replace (xl' * v * 2)%R with ((2 * xl') * v)%R in C6 by ring. destruct (@lin_op (2 * xl')%R _ ltac:(apply Rabs_le; lra) C6 (@fmul_word nn F64 _ _)) as (Gt & t' & Et & Nt). fold t in Gt, Et.
  assert (Bt : (Rabs t' <= / 1000000)%R). { unfold near in Nt. apply Rabs_imp in Nt. rewrite Rabs_mult, (Rabs_right 2) in Nt by lra. apply Rabs_le. unfold u53, e150 in *. lra. }
  assert (Bxx : (Rabs (xh' * xh') <= 101 / 100)%R). { rewrite Rabs_mult. assert (Rabs xh' <= 1004 / 1000)%R by (apply Rabs_le; lra). pose proof (Rabs_pos xh'). nra. }
  assert (Bl1 : (Rabs l1 <= 3 / 2)%R).
  { pose proof (@sq_near xh' _ Bh ltac:(lra)) as S1. unfold near in Nq1, Nl1, Nhh. rewrite Rabs_R1 in Nhh. apply Rabs_imp in Nhh, Nq1, S1. assert (Bq : (Rabs (q1 - hh) <= / 10)%R) by (apply Rabs_le; unfold u53, e150 in *; lra). apply Rabs_imp in Nl1. pose proof (Rabs_imp _ _ Bq). apply Rabs_le. unfold u53, e150 in *. lra. }
  assert (Bxt : (Rabs (xh' * t') <= / 100000)%R). { rewrite Rabs_mult. assert (Rabs xh' <= 2)%R by (apply Rabs_le; lra). pose proof (Rabs_pos xh'). pose proof (Rabs_pos t'). nra. }
  destruct (@fma_quad fm xh t _ xh' t' l1 Gh Gt Gl1 Eh Et El1) as (Gl2 & q2 & l2 & Nq2 & Nl2 & El2); auto; [lra|].
  assert (Bl2 : (Rabs l2 <= 3 / 2)%R).
  { pose proof (@sq_near xh' _ Bh ltac:(lra)) as S1. unfold near in Nq1, Nl1, Nhh, Nq2, Nl2. rewrite Rabs_R1 in Nhh. apply Rabs_imp in Nhh, Nq1, S1. assert (Bq : (Rabs (q1 - hh) <= / 10)%R) by (apply Rabs_le; unfold u53, e150 in *; lra). apply Rabs_imp in Nl1, Nq2. pose proof (Rabs_imp _ _ Bq). pose proof (Rabs_imp _ _ Bxt).
    assert (Bz : (Rabs (q2 + l1) <= 1 / 2)%R) by (apply Rabs_le; unfold u53, e150 in *; lra). apply Rabs_imp in Nl2. pose proof (Rabs_imp _ _ Bz). apply Rabs_le; unfold u53, e150 in *; lra. }
  destruct (@fma_quad fm xl xl _ xl' xl' l2 Gl Gl Gl2 El El El2) as (Gl3 & q3 & l3 & Nq3 & Nl3 & El3); auto. { rewrite Rabs_mult. pose proof (Rabs_pos xl'). nra. }
  split; [exact Ghh|]. split; [exact Gl3|]. exists hh, l3. split; [exact Ehh|]. split; [exact El3|].
  destruct (@split_num c d' xh' xl' hh q1 l1 t' q2 l2 q3 l3) as [R1 R2]; auto. split; auto. split; auto. unfold near in Nhh. rewrite Rabs_R1, Rmult_1_r in Nhh. exact Nhh.
Qed.
End D.
