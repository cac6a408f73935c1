(** Accuracy of log and log2 on positive normal numbers: rounding errors (FErr), the tables and polynomials against ln (LnBound). *)
From Coq Require Import ZifyBool ZifyNat Reals Lra.
From Flocq Require Import Core IEEE754.BinarySingleNaN IEEE754.Binary.
From Verif Require Import Base Cxx Spec X86Vec X86 X86Lemmas X86Proofs X86Ops Fp FpLemmas FpOps FMath FMathProofs FLane FFields FManip FManipLanes PropManip Round RoundProofs RoundSem FArith Cvt CvtProofs LogbProofs PropArith FCvt PropHypot PropIeee FRoute FRouteProofs LogTab Log LogProofs PropLog
  FErr IvPoly TrigTab SinPoly LnBound LogRed.
Set Implicit Arguments.
Open Scope Z_scope.

(** *** fmadd and fmsub when the exact result is known to be small *)
Section B.
Context (nn : nans) {X : xty} (fm : bool).
Local Notation f := (xf X).
Definition dfb f e1 m1 e2 m2 e3 : Z := Emul (f := f) e1 m1 e2 m2 + e3.
Definition Efb f e1 m1 e2 m2 e3 b : Z := dfb f e1 m1 e2 m2 e3 + rr f (b + dfb f e1 m1 e2 m2 e3).
Definition Mfb f e1 m1 e2 m2 e3 b : Z := b + dfb f e1 m1 e2 m2 e3 + rr f (b + dfb f e1 m1 e2 m2 e3).
Definition ofb f e1 m1 e2 m2 e3 b : bool := over f (cd (m1 * m2)) && over f (b + dfb f e1 m1 e2 m2 e3).
Lemma ap_small y s r b d : 0 <= b -> 0 <= d -> over f (b + d) = true -> (Rabs r <= IZR b * UU)%R -> (Rabs (s - r) <= IZR d * UU)%R -> word (fw f) y -> correct_round f s y -> ap f y r (d + rr f (b + d)) (b + d + rr f (b + d)).
Proof.
  intros Hb Hd Ho Hr Hs Wy C. apply ap_round with s; auto; try lia. replace s with (r + (s - r))%R by ring. eapply Rle_trans; [apply Rabs_triang|]. rewrite plus_IZR, Rmult_plus_distr_r. lra.
Qed.
Lemma ap_fmab x r e1 m1 y s e2 m2 c t e3 m3 b : ap f x r e1 m1 -> ap f y s e2 m2 -> ap f c t e3 m3 -> 0 <= b -> (Rabs (r * s + t) <= IZR b * UU)%R -> ofb f e1 m1 e2 m2 e3 b = true ->
  ap f (fmadd1 (X := X) nn fm x y c) (r * s + t) (Efb f e1 m1 e2 m2 e3 b) (Mfb f e1 m1 e2 m2 e3 b).
Proof.
  intros Hx Hy Hc Hb B Ho. unfold ofb in Ho. apply andb_prop in Ho. destruct Ho as [O1 O2]. pose proof (ap_mul nn Hx Hy O1) as Hm. destruct (mul_real Hx Hy) as (_ & E & P & Q). pose proof (rr_ge0 f P) as RP. pose proof UU_pos as UP.
  assert (D : 0 <= dfb f e1 m1 e2 m2 e3) by (unfold dfb, Emul; destruct Hc as (_ & _ & _ & _ & E3 & _); lia). unfold Efb, Mfb, fmadd1. destruct fm.
  - apply ap_small with (val f x * val f y + val f c)%R; auto; [|apply ffma_word|destruct Hx as (Wx & Fx & _), Hy as (Wy & Fy & _), Hc as (Wc & Fc & _); apply fma_ok; auto; split; auto].
    replace (val f x * val f y + val f c - (r * s + t))%R with ((val f x * val f y - r * s) + (val f c - t))%R by ring. eapply Rle_trans; [apply Rabs_triang|]. destruct Hc as (_ & _ & Ec & _). unfold dfb, Emul.
    rewrite !plus_IZR, !Rmult_plus_distr_r. apply IZR_le in RP. assert (0 <= IZR (rr f (cd (m1 * m2))) * UU)%R by (apply Rmult_le_pos; lra). lra.
  - destruct Hm as (Wm & Fm & Em & _), Hc as (Wc & Fc & Ec & _). apply ap_small with (val f (fmul nn f x y) + val f c)%R; auto; [|apply fadd_word|apply (add_ok nn Wm Wc); auto].
    replace (val f (fmul nn f x y) + val f c - (r * s + t))%R with ((val f (fmul nn f x y) - r * s) + (val f c - t))%R by ring. eapply Rle_trans; [apply Rabs_triang|]. unfold dfb. rewrite plus_IZR, Rmult_plus_distr_r. lra.
Qed.
Lemma ap_fmsb x r e1 m1 y s e2 m2 c t e3 m3 b : ap f x r e1 m1 -> ap f y s e2 m2 -> ap f c t e3 m3 -> 0 <= b -> (Rabs (r * s - t) <= IZR b * UU)%R -> ofb f e1 m1 e2 m2 e3 b = true ->
  ap f (fmsub1 (X := X) nn fm x y c) (r * s - t) (Efb f e1 m1 e2 m2 e3 b) (Mfb f e1 m1 e2 m2 e3 b).
Proof.
  intros Hx Hy Hc Hb B Ho. unfold ofb in Ho. apply andb_prop in Ho. destruct Ho as [O1 O2]. pose proof (ap_mul nn Hx Hy O1) as Hm. destruct (mul_real Hx Hy) as (_ & E & P & Q). pose proof (rr_ge0 f P) as RP. pose proof UU_pos as UP.
  assert (D : 0 <= dfb f e1 m1 e2 m2 e3) by (unfold dfb, Emul; destruct Hc as (_ & _ & _ & _ & E3 & _); lia). unfold Efb, Mfb, fmsub1. destruct fm.
  - destruct Hx as (Wx & Fx & _), Hy as (Wy & Fy & _), Hc as (Wc & Fc & Ec & _). destruct (fneg_ok (f := f) Wc) as (Wn & Fn & Vn & _). rewrite Fc in Fn.
    apply ap_small with (val f x * val f y + val f (fneg (fw f) c))%R; auto; [|apply ffma_word|apply fma_ok; auto; split; auto].
    rewrite Vn. replace (val f x * val f y + - val f c - (r * s - t))%R with ((val f x * val f y - r * s) + - (val f c - t))%R by ring. eapply Rle_trans; [apply Rabs_triang|]. rewrite Rabs_Ropp. unfold dfb, Emul.
    rewrite !plus_IZR, !Rmult_plus_distr_r. apply IZR_le in RP. assert (0 <= IZR (rr f (cd (m1 * m2))) * UU)%R by (apply Rmult_le_pos; lra). lra.
  - destruct Hm as (Wm & Fm & Em & _), Hc as (Wc & Fc & Ec & _). apply ap_small with (val f (fmul nn f x y) - val f c)%R; auto; [|apply fsub_word|apply (sub_ok nn Wm Wc); auto].
    replace (val f (fmul nn f x y) - val f c - (r * s - t))%R with ((val f (fmul nn f x y) - r * s) + - (val f c - t))%R by ring. eapply Rle_trans; [apply Rabs_triang|]. rewrite Rabs_Ropp. unfold dfb. rewrite plus_IZR, Rmult_plus_distr_r. lra.
Qed.
End B.
(** *** the tables: entry i is (c, l) with l = - ln c / K up to tol, and |z c - 1| <= rho for every z of the bin *)
Definition inb (p : Z * Z) (b : Z) : bool := (- b <=? fst p) && (snd p <=? b).
Definition zcok0 (f : fmt) (c : Z) : bool := zcok f c || (c =? 0).
Lemma zcok0_ok f c : zcok0 f c = true -> apok f c = true /\ iv (ipt (zc f c)) (val f c).
Proof.
  unfold zcok0. intros H. apply orb_prop in H. destruct H as [H | H].
  - split; [unfold zcok in H; apply andb_prop in H; tauto|now apply ipt_ok].
  - apply Z.eqb_eq in H. subst c. split; [destruct f; reflexivity|]. destruct (@zero_ok f) as (_ & _ & ->). replace (zc f 0) with 0 by (destruct f; reflexivity). unfold iv, ipt. cbn [fst snd]. lra.
Qed.
Definition binchk (f : fmt) (bits : Z) (tab : list Z) (sI : Z * Z) (rho tol ml i : Z) : bool :=
  let ic := nth (Z.to_nat (2 * i)) tab 0 in let lc := nth (Z.to_nat (2 * i + 1)) tab 0 in
  let z0 := log_off (fw f) + i * 2 ^ (mw f - bits) in let z1 := log_off (fw f) + (i + 1) * 2 ^ (mw f - bits) in
  let c := zc f ic in let q := lnJ inv60 alt60 60 c in
  zcok f ic && zcok0 f lc && zcok f z0 && zcok f z1 && (S140 <=? 2 * c) && (2 * c <=? 3 * S140) &&
  ((S140 - rho) * S140 <=? zc f z0 * c) && (zc f z1 * c <=? (S140 + rho) * S140) &&
  inb (iadd (imul (fst sI) (snd sI) (ipt (zc f lc))) q) tol && (mcst f ic <=? 3 * 2 ^ 139) && (mcst f lc <=? ml) && (2 ^ mw f <=? z0) && (z1 <? finf (fw f)) && (zc f z1 <=? 3 * 2 ^ 139) &&
  inb q (2 ^ 138 + 2 ^ 137).
Definition tabchk (f : fmt) (bits : Z) (tab : list Z) (sI : Z * Z) (rho tol ml : Z) : bool := forallb (fun i => binchk f bits tab sI rho tol ml (Z.of_nat i)) (seq 0 (Z.to_nat (2 ^ bits))).
Lemma ln_le_x x : (0 < x)%R -> (ln x <= x - 1)%R.
Proof. intros H. pose proof (exp_ineq1_le (ln x)) as E. rewrite exp_ln in E by auto. lra. Qed.
Lemma bin_ok f bits tab sI rho tol ml K i z : tabchk f bits tab sI rho tol ml = true -> 0 <= i < 2 ^ bits -> 0 <= fst sI -> iv sI K -> 0 <= bits ->
  log_off (fw f) + i * 2 ^ (mw f - bits) <= z < log_off (fw f) + (i + 1) * 2 ^ (mw f - bits) ->
  let ic := nth (Z.to_nat (2 * i)) tab 0 in let lc := nth (Z.to_nat (2 * i + 1)) tab 0 in
  ap f ic (val f ic) 0 (3 * 2 ^ 139) /\ ap f lc (val f lc) 0 ml /\ ap f z (mval f z) 0 (3 * 2 ^ 139) /\ (/ 2 <= val f ic)%R /\ (0 < mval f z)%R /\
  (Rabs (mval f z * val f ic - 1) <= IZR rho * UU)%R /\ (Rabs (K * val f lc + ln (val f ic)) <= IZR tol * UU)%R /\ (Rabs (ln (val f ic)) <= 3 / 8)%R.
Proof.
  intros HT Hi Hs HK Hb Hz ic lc. unfold tabchk in HT. rewrite forallb_forall in HT. specialize (HT (Z.to_nat i)). rewrite in_seq, Z2Nat.id in HT by lia. specialize (HT ltac:(lia)).
  unfold binchk in HT. cbv zeta in HT. rewrite <- lnI_60 in HT. fold ic lc in HT. set (z0 := log_off (fw f) + i * 2 ^ (mw f - bits)) in *. set (z1 := log_off (fw f) + (i + 1) * 2 ^ (mw f - bits)) in *. set (c := zc f ic) in *. clearbody z0 z1.
  rewrite !andb_true_iff in HT. destruct HT as ((((((((((((((H1 & H2) & H3) & H4) & H5) & H6) & H7) & H8) & H9) & H10) & H11) & H12) & H13) & H14) & H15).
  apply Z.leb_le in H5, H6, H7, H8, H10, H11, H12, H14. apply Z.ltb_lt in H13. assert (Pm : 0 < 2 ^ mw f) by (destruct f; reflexivity).
  assert (R0 : 0 <= z0 < finf (fw f)) by (clear -H12 H13 Hz Pm; lia). assert (R1 : 0 <= z1 < finf (fw f)) by (clear -H12 H13 Hz Pm; lia). assert (Rz : 0 <= z < finf (fw f)) by (clear -H12 H13 Hz Pm; lia).
  assert (Rp : 0 < z) by (clear -H12 Hz Pm; lia). assert (C3 : S140 <= 2 * c <= 3 * S140) by (split; assumption).
  pose proof UU_pos as UP. pose proof UU_inv as I. fold S140 in I.
  destruct (zcok0_ok f lc H2) as [A2 P2]. assert (A1 : apok f ic = true) by (unfold zcok in H1; apply andb_prop in H1; tauto).
  assert (Vic : val f ic = (IZR c * UU)%R) by (apply zc_ok; exact H1). assert (V0 : mval f z0 = (IZR (zc f z0) * UU)%R). { rewrite <- (zc_ok _ _ H3). symmetry. now apply val_mval. }
  assert (V1 : mval f z1 = (IZR (zc f z1) * UU)%R). { rewrite <- (zc_ok _ _ H4). symmetry. now apply val_mval. }
  assert (Z0 : (mval f z0 <= mval f z)%R) by (apply mval_le; clear -R0 Rz Hz; lia). assert (Z1 : (mval f z <= mval f z1)%R) by (apply mval_le; clear -R1 Rz Hz; lia).
  destruct (@val_mval f z Rz) as (Wz & Fz & Vz).
  assert (Pz : (0 < mval f z)%R). { rewrite <- (@mval_0 f). apply mval_lt. clear -Rp; lia. }
  assert (C0 : (/ 2 <= IZR c * UU)%R). { apply IZR_le in H5. rewrite mult_IZR in H5. apply Rmult_le_compat_r with (r := UU) in H5; lra. }
  assert (M3 : (IZR (3 * 2 ^ 139) * UU = 3 / 2)%R). { replace (2 ^ 140) with (2 * 2 ^ 139) in I by reflexivity. unfold S140 in I. replace (2 ^ 140) with (2 * 2 ^ 139) in I by reflexivity. rewrite mult_IZR in *. lra. }
  split; [|split; [|split; [|split; [|split; [|split; [|split]]]]]]; auto.
  - eapply ap_wk; [apply (ap_const _ _ A1)|apply Z.le_refl|exact H10].
  - eapply ap_wk; [apply (ap_const _ _ A2)|apply Z.le_refl|exact H11].
  - rewrite <- Vz. apply ap_exact; auto; [discriminate|]. rewrite Vz, Rabs_pos_eq by lra. eapply Rle_trans; [exact Z1|]. rewrite V1. apply Rmult_le_compat_r; [lra|]. apply IZR_le. exact H14.
  - rewrite Vic. exact C0.
  - apply IZR_le in H7, H8. rewrite !mult_IZR in H7, H8. rewrite minus_IZR in H7. rewrite plus_IZR in H8. apply Rmult_le_compat_r with (r := (UU * UU)%R) in H7, H8; try (apply Rmult_le_pos; lra).
    assert (L : (mval f z0 * val f ic <= mval f z * val f ic)%R) by (apply Rmult_le_compat_r; lra). assert (U : (mval f z * val f ic <= mval f z1 * val f ic)%R) by (apply Rmult_le_compat_r; lra).
    rewrite Vic in *. rewrite V0 in L. rewrite V1 in U. apply Rabs_le.
    replace (IZR (zc f z0) * IZR c * (UU * UU))%R with (IZR (zc f z0) * UU * (IZR c * UU))%R in H7 by ring. replace (IZR (zc f z1) * IZR c * (UU * UU))%R with (IZR (zc f z1) * UU * (IZR c * UU))%R in H8 by ring.
    replace ((IZR S140 - IZR rho) * IZR S140 * (UU * UU))%R with ((IZR S140 * UU - IZR rho * UU) * (IZR S140 * UU))%R in H7 by ring. replace ((IZR S140 + IZR rho) * IZR S140 * (UU * UU))%R with ((IZR S140 * UU + IZR rho * UU) * (IZR S140 * UU))%R in H8 by ring.
    rewrite I in H7, H8. lra.
  - unfold inb in H9. apply andb_prop in H9. destruct H9 as [B1 B2]. apply Z.leb_le in B1, B2. apply iv_abs with (p := iadd (imul (fst sI) (snd sI) (ipt (zc f lc))) (lnI 60 c)); [|exact B1|exact B2].
    apply iadd_ok. { apply imul_ok; auto. } rewrite Vic. apply lnI_ok. exact C3.
  - unfold inb in H15. apply andb_prop in H15. destruct H15 as [B1 B2]. apply Z.leb_le in B1, B2. replace (3 / 8)%R with (IZR (2 ^ 138 + 2 ^ 137) * UU)%R.
    + apply iv_abs with (p := lnI 60 c); [|exact B1|exact B2]. rewrite Vic. apply lnI_ok. exact C3.
    + unfold S140 in I. replace (2 ^ 140) with (8 * 2 ^ 137) in I by reflexivity. replace (2 ^ 138 + 2 ^ 137) with (3 * 2 ^ 137) by reflexivity. rewrite mult_IZR in *. lra.
Qed.
(** *** the real part: (k d + l + r c(r)) K against ln x *)
Lemma real_part k lnc l K r dln tol pe ic z x (P : R) : (x = bpow radix2 k * z)%R -> (0 < z)%R -> (/ 2 <= ic)%R -> (r = z * ic - 1)%R -> (0 < 1 + r)%R ->
  (Rabs (K * lnc - ln 2) <= dln)%R -> (Rabs (K * l + ln ic) <= tol)%R -> (Rabs (K * P - ln (1 + r)) <= pe)%R ->
  (Rabs (K * (IZR k * lnc + l + P) - ln x) <= Rabs (IZR k) * dln + tol + pe)%R.
Proof.
  intros Ex Hz Hi Er Hr D1 D2 D3.
  assert (L2 : ln (bpow radix2 k) = (IZR k * ln 2)%R). { rewrite bpow_powerRZ. change (IZR radix2) with 2%R. rewrite powerRZ_Rpower by lra. unfold Rpower. apply ln_exp. }
  assert (E : ln x = (IZR k * ln 2 - ln ic + ln (1 + r))%R). { rewrite Er. replace (1 + (z * ic - 1))%R with (z * ic)%R by ring. rewrite Ex, !ln_mult, L2; try lra. apply bpow_gt_0. }
  rewrite E. replace (K * (IZR k * lnc + l + P) - (IZR k * ln 2 - ln ic + ln (1 + r)))%R with (IZR k * (K * lnc - ln 2) + (K * l + ln ic) + (K * P - ln (1 + r)))%R by ring.
  eapply Rle_trans; [apply Rabs_triang|]. apply Rplus_le_compat; auto. eapply Rle_trans; [apply Rabs_triang|]. apply Rplus_le_compat; auto. rewrite Rabs_mult. apply Rmult_le_compat_l; auto. apply Rabs_pos.
Qed.
(** *** rounding errors *)
(** a pair that is not unfolded by the proofs *)
Definition pr (a b : Z) : Z * Z := (a, b).
Lemma pr_inv a b c d : pr a b = (c, d) -> a = c /\ b = d. Proof. now intros [= -> ->]. Qed.
Ltac dpr e m := let H := fresh "Q" in destruct (pr _ _) as [e m] eqn:H; apply pr_inv in H; let H1 := fresh "E" e in let H2 := fresh "E" m in destruct H as [H1 H2].
Definition mone (f : fmt) : Z := S140.
Definition rhoZ (b : bool) (f : fmt) : Z := match f with F32 => 2 ^ 135 | F64 => if b then 11 * 2 ^ 132 else 9 * 2 ^ 129 end.    (* b: log2 *)
Definition mh : Z := 3 * 2 ^ 139.
Section Ch.
Context (nn : nans) {X : xty} (HX : xty_ok X) (HF : is_int (xT X) = false) (fm : bool).
Local Notation f := (xf X).
Local Notation w := (xw X).
Variables (z ic lc kf r0 rho ml ak : Z) (k : Z).
Hypotheses (Az : ap f z (mval f z) 0 mh) (Ac : ap f ic (val f ic) 0 mh) (Al : ap f lc (val f lc) 0 ml) (Ak : ap f kf (IZR k) 0 (ak * S140)).
Hypotheses (Hr : 0 <= rho) (Br : (Rabs (mval f z * val f ic - 1) <= IZR rho * UU)%R).
Lemma one_ap : ap f (fone (fw f)) 1 0 S140.
Proof.
  assert (E : val f (fone (fw f)) = 1%R). { rewrite zc_ok by (destruct f; reflexivity). replace (zc f (fone (fw f))) with (2 ^ 140) by (destruct f; reflexivity). apply UU_inv. }
  rewrite <- E. eapply ap_wk; [apply ap_const; destruct f; reflexivity|lia|destruct f; vm_compute; discriminate].
Qed.
Lemma mone_ap : ap f (fminus1 (fw f)) (-1) 0 S140.
Proof.
  assert (E : val f (fminus1 (fw f)) = (-1)%R). { rewrite zc_ok by (destruct f; reflexivity). replace (zc f (fminus1 (fw f))) with (- 2 ^ 140) by (destruct f; reflexivity). rewrite opp_IZR. pose proof UU_inv. lra. }
  rewrite <- E. eapply ap_wk; [apply ap_const; destruct f; reflexivity|lia|destruct f; vm_compute; discriminate].
Qed.
Definition rE f rho := Efb f 0 mh 0 mh 0 rho.
Definition rM f rho := Mfb f 0 mh 0 mh 0 rho.
Definition rO f rho := ofb f 0 mh 0 mh 0 rho.
Lemma r_ap : rO f rho = true -> ap f (fmadd1 (X := X) nn fm z ic (fminus1 (fw f))) (mval f z * val f ic - 1) (rE f rho) (rM f rho).
Proof. intros O. unfold Rminus. change (-(1))%R with (-1)%R. apply (ap_fmab nn fm Az Ac mone_ap Hr); auto. Qed.
Lemma rs_ap : rO f rho = true -> ap f (fmsub1 (X := X) nn fm z ic (fone (fw f))) (mval f z * val f ic - 1) (rE f rho) (rM f rho).
Proof. intros O. apply (ap_fmsb nn fm Az Ac one_ap Hr); auto. Qed.
Local Notation R := (mval f z * val f ic - 1)%R.
Local Notation fma := (fmadd1 (X := X) nn fm).
(** y0 + r, shared by both formats of log *)
Definition yB f rho ml ak : Z * Z * bool :=
  let mk := ak * S140 in let ml2 := mcst f (c_ln2 (fw f)) in
  let e0 := Efma (f := f) 0 mk 0 ml2 0 ml in let m0 := Mfma (f := f) mk ml2 ml in
  (Eadd (f := f) e0 m0 (rE f rho) (rM f rho), Madd (f := f) m0 (rM f rho), ofma (f := f) mk ml2 ml && over f (m0 + rM f rho) && apok f (c_ln2 (fw f)) && rO f rho).
Lemma y_ap r e m : yB f rho ml ak = (e, m, true) -> ap f r R (rE f rho) (rM f rho) -> ap f (fadd nn f (fma kf (c_ln2 (fw f)) lc) r) (IZR k * val f (c_ln2 (fw f)) + val f lc + R) e m.
Proof.
  unfold yB. cbv zeta. intros [= <- <- O] Ar. rewrite !andb_true_iff in O. destruct O as (((O1 & O2) & O3) & _). apply ap_add; auto. apply ap_fma; auto. now apply ap_const.
Qed.
Definition logB32 f rho ml ak : Z * bool :=
  let '(es, ms, o) := yB f rho ml ak in let er := rE f rho in let mr := rM f rho in
  let c0 := mcst f (cf logcoff_f32 0) in let c1 := mcst f (cf logcoff_f32 1) in let c2 := mcst f (cf logcoff_f32 2) in
  let e2 := Emul (f := f) er mr er mr in let m2 := Mmul (f := f) mr mr in
  let ea := Efma (f := f) 0 c1 er mr 0 c2 in let ma := Mfma (f := f) c1 mr c2 in
  let eb := Efma (f := f) 0 c0 e2 m2 ea ma in let mb := Mfma (f := f) c0 m2 ma in
  (Efma (f := f) eb mb e2 m2 es ms, o && over f (cd (mr * mr)) && ofma (f := f) c1 mr c2 && ofma (f := f) c0 m2 ma && ofma (f := f) mb m2 ms && forallb (apok f) logcoff_f32).
Lemma log32_ap r e : logB32 f rho ml ak = (e, true) -> ap f r R (rE f rho) (rM f rho) -> exists m,
  ap f (fma (fma (cf logcoff_f32 0) (fmul nn f r r) (fma (cf logcoff_f32 1) r (cf logcoff_f32 2))) (fmul nn f r r) (fadd nn f (fma kf (c_ln2 (fw f)) lc) r))
    (IZR k * val f (c_ln2 (fw f)) + val f lc + R * hornerR [1; val f (cf logcoff_f32 2); val f (cf logcoff_f32 1); val f (cf logcoff_f32 0)]%R R) e m.
Proof.
  unfold logB32. destruct (yB f rho ml ak) as [[es ms] o] eqn:Y. cbv zeta. intros [= <- O] Ar. rewrite !andb_true_iff in O. destruct O as (((((-> & O1) & O2) & O3) & O4) & O5).
  unfold logcoff_f32 in O5. cbn [forallb] in O5. rewrite ?andb_true_iff in O5. destruct O5 as (K0 & K1 & K2 & _).
  pose proof (y_ap Y Ar) as Ay. assert (A2 := ap_mul nn Ar Ar O1).
  assert (Aa := ap_fma nn X fm (ap_const f (cf logcoff_f32 1) K1) Ar (ap_const f (cf logcoff_f32 2) K2) O2).
  assert (Ab := ap_fma nn X fm (ap_const f (cf logcoff_f32 0) K0) A2 Aa O3).
  assert (AA := ap_fma nn X fm Ab A2 Ay O4). eexists. 
  replace (IZR k * val f (c_ln2 (fw f)) + val f lc + R * hornerR [1; val f (cf logcoff_f32 2); val f (cf logcoff_f32 1); val f (cf logcoff_f32 0)] R)%R
    with ((val f (cf logcoff_f32 0) * (R * R) + (val f (cf logcoff_f32 1) * R + val f (cf logcoff_f32 2))) * (R * R) + (IZR k * val f (c_ln2 (fw f)) + val f lc + R))%R; [exact AA|].
  unfold hornerR. cbn [fold_right]. ring.
Qed.
Definition logB64 f rho ml ak : Z * bool :=
  let '(es, ms, o) := yB f rho ml ak in let er := rE f rho in let mr := rM f rho in
  let c i := mcst f (cf logcoff_f64 i) in
  let e2 := Emul (f := f) er mr er mr in let m2 := Mmul (f := f) mr mr in
  let ep := Efma (f := f) 0 (c 1%nat) er mr 0 (c 0%nat) in let mp := Mfma (f := f) (c 1%nat) mr (c 0%nat) in
  let ea := Efma (f := f) 0 (c 3%nat) er mr 0 (c 2%nat) in let ma := Mfma (f := f) (c 3%nat) mr (c 2%nat) in
  let eb := Efma (f := f) 0 (c 4%nat) e2 m2 ea ma in let mb := Mfma (f := f) (c 4%nat) m2 ma in
  let eq := Efma (f := f) eb mb e2 m2 ep mp in let mq := Mfma (f := f) mb m2 mp in
  (Efma (f := f) eq mq e2 m2 es ms, o && over f (cd (mr * mr)) && ofma (f := f) (c 1%nat) mr (c 0%nat) && ofma (f := f) (c 3%nat) mr (c 2%nat) && ofma (f := f) (c 4%nat) m2 ma && ofma (f := f) mb m2 mp && ofma (f := f) mq m2 ms && forallb (apok f) logcoff_f64).
Local Notation d i := (cf logcoff_f64 i).
Lemma log64_ap r e : logB64 f rho ml ak = (e, true) -> ap f r R (rE f rho) (rM f rho) -> exists m,
  ap f (fma (fma (fma (d 4) (fmul nn f r r) (fma (d 3) r (d 2))) (fmul nn f r r) (fma (d 1) r (d 0))) (fmul nn f r r) (fadd nn f (fma kf (c_ln2 (fw f)) lc) r))
    (IZR k * val f (c_ln2 (fw f)) + val f lc + R * hornerR [1; val f (d 0); val f (d 1); val f (d 2); val f (d 3); val f (d 4)]%R R) e m.
Proof.
  unfold logB64. destruct (yB f rho ml ak) as [[es ms] o] eqn:Y. cbv zeta. intros [= <- O] Ar. rewrite !andb_true_iff in O. destruct O as (((((((-> & O1) & O2) & O3) & O4) & O5) & O6) & O7).
  unfold logcoff_f64 in O7. cbn [forallb] in O7. rewrite ?andb_true_iff in O7. destruct O7 as (K0 & K1 & K2 & K3 & K4 & _).
  pose proof (y_ap Y Ar) as Ay. assert (A2 := ap_mul nn Ar Ar O1).
  assert (Ap := ap_fma nn X fm (ap_const f (d 1) K1) Ar (ap_const f (d 0) K0) O2).
  assert (Aa := ap_fma nn X fm (ap_const f (d 3) K3) Ar (ap_const f (d 2) K2) O3).
  assert (Ab := ap_fma nn X fm (ap_const f (d 4) K4) A2 Aa O4).
  assert (Aq := ap_fma nn X fm Ab A2 Ap O5). assert (AA := ap_fma nn X fm Aq A2 Ay O6). eexists.
  replace (IZR k * val f (c_ln2 (fw f)) + val f lc + R * hornerR [1; val f (d 0); val f (d 1); val f (d 2); val f (d 3); val f (d 4)] R)%R
    with (((val f (d 4) * (R * R) + (val f (d 3) * R + val f (d 2))) * (R * R) + (val f (d 1) * R + val f (d 0))) * (R * R) + (IZR k * val f (c_ln2 (fw f)) + val f lc + R))%R; [exact AA|].
  unfold hornerR. cbn [fold_right]. ring.
Qed.
(** log2 *)
Local Notation g i := (cf log2coff_f32 i).
Definition log2B32 f rho ml ak : Z * bool :=
  let er := rE f rho in let mr := rM f rho in let mk := ak * S140 in let c i := mcst f (g i) in
  let '(e0, m0) := pr (Eadd (f := f) 0 ml 0 mk) (Madd (f := f) ml mk) in
  let '(e2, m2) := pr (Emul (f := f) er mr er mr) (Mmul (f := f) mr mr) in
  let '(ep, mp) := pr (Efma (f := f) 0 (c 3%nat) er mr e0 m0) (Mfma (f := f) (c 3%nat) mr m0) in
  let '(ea, ma) := pr (Efma (f := f) 0 (c 1%nat) er mr 0 (c 2%nat)) (Mfma (f := f) (c 1%nat) mr (c 2%nat)) in
  let '(ebb, mb) := pr (Efma (f := f) 0 (c 0%nat) e2 m2 ea ma) (Mfma (f := f) (c 0%nat) m2 ma) in
  (Efma (f := f) ebb mb e2 m2 ep mp, rO f rho && over f (ml + mk) && over f (cd (mr * mr)) && ofma (f := f) (c 3%nat) mr m0 && ofma (f := f) (c 1%nat) mr (c 2%nat) && ofma (f := f) (c 0%nat) m2 ma && ofma (f := f) mb m2 mp && forallb (apok f) log2coff_f32).
Lemma log2_32_ap r e : log2B32 f rho ml ak = (e, true) -> ap f r R (rE f rho) (rM f rho) -> exists m,
  ap f (fma (fma (g 0) (fmul nn f r r) (fma (g 1) r (g 2))) (fmul nn f r r) (fma (g 3) r (fadd nn f lc kf)))
    (IZR k * 1 + val f lc + R * hornerR [val f (g 3); val f (g 2); val f (g 1); val f (g 0)]%R R) e m.
Proof.
  unfold log2B32. cbv zeta. dpr e0 m0. dpr e2 m2. dpr ep mp. dpr ea ma. dpr ebb mb. intros Hq. apply pair_equal_spec in Hq. destruct Hq as [<- O]. intros Ar. rewrite !andb_true_iff in O. destruct O as (((((((_ & O0) & O1) & O2) & O3) & O4) & O5) & O6).
  unfold log2coff_f32 in O6. cbn [forallb] in O6. rewrite ?andb_true_iff in O6. destruct O6 as (K0 & K1 & K2 & K3 & _).
  assert (A0 := ap_add nn Al Ak O0). rewrite Ee0, Em0 in A0. assert (A2 := ap_mul nn Ar Ar O1). rewrite Ee2, Em2 in A2.
  assert (Ap := ap_fma nn X fm (ap_const f (g 3) K3) Ar A0 O2). rewrite Eep, Emp in Ap.
  assert (Aa := ap_fma nn X fm (ap_const f (g 1) K1) Ar (ap_const f (g 2) K2) O3). rewrite Eea, Ema in Aa.
  assert (Ab := ap_fma nn X fm (ap_const f (g 0) K0) A2 Aa O4). rewrite Eebb, Emb in Ab. assert (AA := ap_fma nn X fm Ab A2 Ap O5). eexists.
  replace (IZR k * 1 + val f lc + R * hornerR [val f (g 3); val f (g 2); val f (g 1); val f (g 0)] R)%R
    with ((val f (g 0) * (R * R) + (val f (g 1) * R + val f (g 2))) * (R * R) + (val f (g 3) * R + (val f lc + IZR k)))%R; [exact AA|].
  unfold hornerR. cbn [fold_right]. ring.
Qed.
Local Notation h i := (cf log2coff_f64 i).
Local Notation ih := (c_invln2h (fw f)).
Local Notation il := (c_invln2l (fw f)).
Definition log2B64 f rho ml ak : Z * bool :=
  let er := rE f rho in let mr := rM f rho in let mk := ak * S140 in let c i := mcst f (h i) in let mih := mcst f (c_invln2h (fw f)) in let mil := mcst f (c_invln2l (fw f)) in
  let '(et1, mt1) := pr (Emul (f := f) er mr 0 mih) (Mmul (f := f) mr mih) in
  let '(et2, mt2) := pr (Efb f er mr 0 mih et1 0) (Mfb f er mr 0 mih et1 0) in
  let '(eu, mu) := pr (Efma (f := f) er mr 0 mil et2 mt2) (Mfma (f := f) mr mil mt2) in
  let '(et3, mt3) := pr (Eadd (f := f) 0 ml 0 mk) (Madd (f := f) ml mk) in
  let '(eh, mhi) := pr (Eadd (f := f) et3 mt3 et1 mt1) (Madd (f := f) mt3 mt1) in
  let '(es, ms) := pr (Eadd (f := f) et3 mt3 eh mhi) (Madd (f := f) mt3 mhi) in
  let '(ev, mv) := pr (Eadd (f := f) et1 mt1 eu mu) (Madd (f := f) mt1 mu) in
  let '(el, mlo) := pr (Eadd (f := f) es ms ev mv) (Madd (f := f) ms mv) in
  let '(e2, m2) := pr (Emul (f := f) er mr er mr) (Mmul (f := f) mr mr) in
  let '(e4, m4) := pr (Emul (f := f) e2 m2 e2 m2) (Mmul (f := f) m2 m2) in
  let '(ep, mp) := pr (Efma (f := f) er mr 0 (c 3%nat) 0 (c 2%nat)) (Mfma (f := f) mr (c 3%nat) (c 2%nat)) in
  let '(ea, ma) := pr (Efma (f := f) 0 (c 5%nat) er mr 0 (c 4%nat)) (Mfma (f := f) (c 5%nat) mr (c 4%nat)) in
  let '(ebb, mb) := pr (Efma (f := f) e4 m4 ea ma 0 (c 0%nat)) (Mfma (f := f) m4 ma (c 0%nat)) in
  let '(ec, mc) := pr (Efma (f := f) er mr 0 (c 1%nat) ebb mb) (Mfma (f := f) mr (c 1%nat) mb) in
  let '(ed, md) := pr (Efma (f := f) e2 m2 ep mp ec mc) (Mfma (f := f) m2 mp mc) in
  let '(ey, my) := pr (Efma (f := f) e2 m2 ed md eh mhi) (Mfma (f := f) m2 md mhi) in
  (Eadd (f := f) el mlo ey my,
   rO f rho && over f (cd (mr * mih)) && ofb f er mr 0 mih et1 0 && ofma (f := f) mr mil mt2 && over f (ml + mk) && over f (mt3 + mt1) && over f (mt3 + mhi) && over f (mt1 + mu) && over f (ms + mv) &&
   over f (cd (mr * mr)) && over f (cd (m2 * m2)) && ofma (f := f) mr (c 3%nat) (c 2%nat) && ofma (f := f) (c 5%nat) mr (c 4%nat) && ofma (f := f) m4 ma (c 0%nat) && ofma (f := f) mr (c 1%nat) mb &&
   ofma (f := f) m2 mp mc && ofma (f := f) m2 md mhi && over f (mlo + my) && apok f (c_invln2h (fw f)) && apok f (c_invln2l (fw f)) && forallb (apok f) log2coff_f64).
Lemma log2_64_ap r e : log2B64 f rho ml ak = (e, true) -> ap f r R (rE f rho) (rM f rho) -> exists m,
  let t1 := fmul nn f r ih in let t2 := fma r il (fmsub1 (X := X) nn fm r ih t1) in let t3 := fadd nn f lc kf in let hi := fadd nn f t3 t1 in
  let r2 := fmul nn f r r in
  ap f (fadd nn f (fadd nn f (fsub nn f t3 hi) (fadd nn f t1 t2)) (fma r2 (fma r2 (fma r (h 3) (h 2)) (fma r (h 1) (fma (fmul nn f r2 r2) (fma (h 5) r (h 4)) (h 0)))) hi))
    (IZR k * 1 + val f lc + R * hornerR [val f ih + val f il; val f (h 0); val f (h 1); val f (h 2); val f (h 3); val f (h 4); val f (h 5)]%R R) e m.
Proof.
  unfold log2B64. cbv zeta. dpr et1 mt1. dpr et2 mt2. dpr eu mu. dpr et3 mt3. dpr eh mhi. dpr es ms. dpr ev mv. dpr el mlo. dpr e2 m2. dpr e4 m4. dpr ep mp. dpr ea ma. dpr ebb mb. dpr ec mc. dpr ed md. dpr ey my. intros Hq. apply pair_equal_spec in Hq. destruct Hq as [<- O]. intros Ar. rewrite !andb_true_iff in O. destruct O as ((((((((((((((((((((_ & O1) & O2) & O3) & O4) & O5) & O6) & O7) & O8) & O9) & Oa) & Ob) & Oc) & Od) & Oe) & Of) & Og) & Oh) & Oi) & Oj) & Ok).
  unfold log2coff_f64 in Ok. cbn [forallb] in Ok. rewrite ?andb_true_iff in Ok. destruct Ok as (K0 & K1 & K2 & K3 & K4 & K5 & _).
  assert (Ah := ap_const f ih Oi). assert (Ai := ap_const f il Oj).
  assert (T1 := ap_mul nn Ar Ah O1). rewrite Eet1, Emt1 in T1.
  assert (Z0 : (Rabs (R * val f ih - R * val f ih) <= IZR 0 * UU)%R) by (rewrite Rminus_diag_eq, Rabs_R0 by reflexivity; lra).
  assert (T2 := ap_fmsb nn fm Ar Ah T1 (Z.le_refl 0) Z0 O2). rewrite Eet2, Emt2 in T2. assert (TU := ap_fma nn X fm Ar Ai T2 O3). rewrite Eeu, Emu in TU.
  assert (T3 := ap_add nn Al Ak O4). rewrite Eet3, Emt3 in T3. assert (H := ap_add nn T3 T1 O5). rewrite Eeh, Emhi in H. assert (S := ap_sub nn T3 H O6). rewrite Ees, Ems in S. assert (V := ap_add nn T1 TU O7). rewrite Eev, Emv in V. assert (Lo := ap_add nn S V O8). rewrite Eel, Emlo in Lo.
  assert (A2 := ap_mul nn Ar Ar O9). rewrite Ee2, Em2 in A2. assert (A4 := ap_mul nn A2 A2 Oa). rewrite Ee4, Em4 in A4.
  assert (Ap := ap_fma nn X fm Ar (ap_const f (h 3) K3) (ap_const f (h 2) K2) Ob). rewrite Eep, Emp in Ap.
  assert (Aa := ap_fma nn X fm (ap_const f (h 5) K5) Ar (ap_const f (h 4) K4) Oc). rewrite Eea, Ema in Aa.
  assert (Ab := ap_fma nn X fm A4 Aa (ap_const f (h 0) K0) Od). rewrite Eebb, Emb in Ab.
  assert (Ac' := ap_fma nn X fm Ar (ap_const f (h 1) K1) Ab Oe). rewrite Eec, Emc in Ac'.
  assert (Ad := ap_fma nn X fm A2 Ap Ac' Of). rewrite Eed, Emd in Ad. assert (Ay := ap_fma nn X fm A2 Ad H Og). rewrite Eey, Emy in Ay. assert (AA := ap_add nn Lo Ay Oh). eexists.
  replace (IZR k * 1 + val f lc + R * hornerR [val f ih + val f il; val f (h 0); val f (h 1); val f (h 2); val f (h 3); val f (h 4); val f (h 5)] R)%R
    with ((val f lc + IZR k - (val f lc + IZR k + R * val f ih) + (R * val f ih + (R * val f il + (R * val f ih - R * val f ih)))) +
      ((R * R) * ((R * R) * (R * val f (h 3) + val f (h 2)) + (R * val f (h 1) + ((R * R) * (R * R) * (val f (h 5) * R + val f (h 4)) + val f (h 0)))) + (val f lc + IZR k + R * val f ih)))%R; [exact AA|].
  unfold hornerR. cbn [fold_right]. ring.
Qed.
End Ch.
