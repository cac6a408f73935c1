(** Bounds of polynomials of high degree over [0, n 2^-k] by repeated Taylor shifts, products of polynomials, and rounding errors of quotients. *)
From Coq Require Import ZifyBool ZifyNat Reals Lra.
From Flocq Require Import Core IEEE754.BinarySingleNaN IEEE754.Binary.
From Verif Require Import Base Cxx Spec X86Vec X86 X86Lemmas X86Proofs Fp FpLemmas FpOps FMath FMathProofs FLane FFields FManip FManipLanes PropManip Round RoundProofs RoundSem FArith PropArith FCvt PropHypot PropIeee PropLog FErr IvPoly TrigTab Trig TrigProofs SinPoly SinEval.
Set Implicit Arguments.
Open Scope Z_scope.

(** times 2^-k *)
Definition im (k : Z) (p : Z * Z) : Z * Z := (zshr (fst p) k, zshr (snd p) k + 1).
Lemma shr_bounds a k : 0 <= k -> (IZR (zshr a k) <= bpow radix2 (- k) * IZR a <= IZR (zshr a k + 1))%R.
Proof.
  intros Hk. rewrite zshr_div by auto. assert (P : 0 < 2 ^ k) by (apply Z.pow_pos_nonneg; lia). pose proof (Z_div_mod_eq_full a (2 ^ k)) as E. pose proof (Z.mod_pos_bound a _ P) as M. set (q := a / 2 ^ k) in *.
  assert (B : (bpow radix2 (- k) * IZR (2 ^ k) = 1)%R). { change 2 with (radix_val radix2). rewrite IZR_Zpower by auto. rewrite <- bpow_plus. replace (- k + k) with 0 by lia. reflexivity. }
  pose proof (bpow_gt_0 radix2 (- k)) as B0. set (b := bpow radix2 (- k)) in *. clearbody b.
  assert (L : (IZR (2 ^ k * q) <= IZR a <= IZR (2 ^ k * (q + 1)))%R) by (split; apply IZR_le; lia). rewrite !mult_IZR in L.
  assert (E1 : forall z, (b * (IZR (2 ^ k) * IZR z) = IZR z)%R) by (intros z; rewrite <- Rmult_assoc, B; ring). split.
  - rewrite <- (E1 q). apply Rmult_le_compat_l; lra.
  - rewrite <- (E1 (q + 1)). apply Rmult_le_compat_l; lra.
Qed.
Lemma im_ok k p r : 0 <= k -> iv p r -> iv (im k p) (bpow radix2 (- k) * r).
Proof.
  intros Hk [A B]. unfold im, iv. cbn [fst snd]. pose proof (shr_bounds (fst p) Hk) as [S1 _]. pose proof (shr_bounds (snd p) Hk) as [_ S2]. pose proof UU_pos as UP. pose proof (bpow_gt_0 radix2 (- k)) as B0. split.
  - apply Rle_trans with (bpow radix2 (- k) * (IZR (fst p) * UU))%R; [|apply Rmult_le_compat_l; lra]. rewrite <- Rmult_assoc. apply Rmult_le_compat_r; lra.
  - apply Rle_trans with (bpow radix2 (- k) * (IZR (snd p) * UU))%R; [apply Rmult_le_compat_l; lra|]. rewrite <- Rmult_assoc. apply Rmult_le_compat_r; lra.
Qed.
(** p(s + w) *)
Fixpoint amR (w h : R) (l : list R) : list R := match l with [] => [h] | x :: l' => (h + w * x)%R :: amR w x l' end.
Lemma amR_ok w s l : forall h, (hornerR (amR w h l) s = h + (s + w) * hornerR l s)%R.
Proof.
  induction l as [|x l IH]; intros h; cbn [amR]. { unfold hornerR. cbn. ring. }
  change (hornerR ((h + w * x)%R :: amR w x l) s) with (h + w * x + s * hornerR (amR w x l) s)%R. rewrite IH. change (hornerR (x :: l) s) with (x + s * hornerR l s)%R. ring.
Qed.
Definition shR (w : R) (l : list R) : list R := fold_right (amR w) [] l.
Lemma shR_ok w l s : hornerR (shR w l) s = hornerR l (s + w)%R.
Proof. unfold shR. induction l as [|c l IH]; [reflexivity|]. cbn [fold_right]. rewrite amR_ok, IH. reflexivity. Qed.
Fixpoint amI (k : Z) (h : Z * Z) (l : list (Z * Z)) : list (Z * Z) := match l with [] => [h] | x :: l' => iadd h (im k x) :: amI k x l' end.
Definition shI (k : Z) (l : list (Z * Z)) : list (Z * Z) := fold_right (amI k) [] l.
Lemma amI_ok k : 0 <= k -> forall ps l h r, iv h r -> Forall2 iv ps l -> Forall2 iv (amI k h ps) (amR (bpow radix2 (- k)) r l).
Proof. intros Hk ps l h r Hh H. revert h r Hh. induction H as [|p x ps l Hp Hl IH]; intros h r Hh; cbn [amI amR]; constructor; auto. apply iadd_ok; auto. now apply im_ok. Qed.
Lemma shI_ok k ps l : 0 <= k -> Forall2 iv ps l -> Forall2 iv (shI k ps) (shR (bpow radix2 (- k)) l).
Proof. intros Hk H. unfold shI, shR. induction H; cbn [fold_right]; [constructor|]. now apply amI_ok. Qed.
(** bound over [0, 2^-k] *)
Definition absI (k : Z) (ps : list (Z * Z)) : Z := fold_right (fun c acc => Z.max (- fst c) (snd c) + (zshr acc k + 1)) 0 ps.
Lemma absI_ok k ps l s : 0 <= k -> Forall2 iv ps l -> (0 <= s <= bpow radix2 (- k))%R -> (Rabs (hornerR l s) <= IZR (absI k ps) * UU)%R.
Proof.
  intros Hk H Hs. pose proof UU_pos as UP. unfold absI. induction H as [|p x ps l Hp Hl IH]; cbn [fold_right]. { unfold hornerR. cbn. rewrite Rabs_R0. lra. }
  change (hornerR (x :: l) s) with (x + s * hornerR l s)%R. set (A := fold_right _ 0 ps) in *. clearbody A. pose proof (Rabs_pos (hornerR l s)) as P0.
  eapply Rle_trans; [apply Rabs_triang|]. rewrite plus_IZR, Rmult_plus_distr_r. apply Rplus_le_compat.
  - apply (iv_abs p x); auto; lia.
  - rewrite Rabs_mult, (Rabs_pos_eq s) by lra. pose proof (shr_bounds A Hk) as [_ S2]. apply Rle_trans with (bpow radix2 (- k) * (IZR A * UU))%R; [apply Rmult_le_compat; lra|]. rewrite <- Rmult_assoc. apply Rmult_le_compat_r; lra.
Qed.
Fixpoint chkI (n : nat) (k B : Z) (ps : list (Z * Z)) : bool := match n with O => true | S m => (absI k ps <=? B) && chkI m k B (shI k ps) end.
Lemma chkI_ok n k B : 0 <= k -> forall ps l t, chkI n k B ps = true -> Forall2 iv ps l -> (0 <= t <= INR n * bpow radix2 (- k))%R -> (0 < n)%nat -> (Rabs (hornerR l t) <= IZR B * UU)%R.
Proof.
  intros Hk. induction n as [|n IH]; intros ps l t H Hl Ht Hn; [lia|]. cbn [chkI] in H. apply andb_prop in H. destruct H as [H1 H2]. apply Z.leb_le, IZR_le in H1. pose proof UU_pos as UP.
  destruct (Rle_lt_dec t (bpow radix2 (- k))) as [L|L]. { eapply Rle_trans; [apply (@absI_ok k ps l t Hk Hl); lra|]. apply Rmult_le_compat_r; lra. }
  rewrite S_INR, Rmult_plus_distr_r, Rmult_1_l in Ht. destruct n as [|n]. { cbn in Ht. lra. }
  assert (R := IH _ _ (t - bpow radix2 (- k))%R H2 (shI_ok Hk Hl) ltac:(lra) ltac:(lia)). rewrite shR_ok in R. replace (t - bpow radix2 (- k) + bpow radix2 (- k))%R with t in R by ring. exact R.
Qed.

(** sums and products *)
Fixpoint paddR (a b : list R) : list R := match a, b with [], _ => b | _, [] => a | x :: a', y :: b' => (x + y)%R :: paddR a' b' end.
Fixpoint pmulR (a b : list R) : list R := match a with [] => [] | c :: a' => paddR (map (Rmult c) b) (0%R :: pmulR a' b) end.
Lemma paddR_ok a : forall b t, (hornerR (paddR a b) t = hornerR a t + hornerR b t)%R.
Proof. induction a as [|x a IH]; intros [|y b] t; cbn [paddR]; unfold hornerR in *; cbn [fold_right]; try ring. rewrite IH. ring. Qed.
Lemma pscal_ok c b t : (hornerR (map (Rmult c) b) t = c * hornerR b t)%R.
Proof. induction b as [|x b IH]; cbn [map]; unfold hornerR in *; cbn [fold_right]; [ring|]. rewrite IH. ring. Qed.
Lemma pmulR_ok a b t : (hornerR (pmulR a b) t = hornerR a t * hornerR b t)%R.
Proof. induction a as [|x a IH]; cbn [pmulR]. { unfold hornerR. cbn. ring. } rewrite paddR_ok, pscal_ok. change (hornerR (0%R :: pmulR a b) t) with (0 + t * hornerR (pmulR a b) t)%R. rewrite IH. change (hornerR (x :: a) t) with (x + t * hornerR a t)%R. ring. Qed.
Fixpoint paddI (a b : list (Z * Z)) : list (Z * Z) := match a, b with [], _ => b | _, [] => a | x :: a', y :: b' => iadd x y :: paddI a' b' end.
(** an exact constant times an interval *)
Definition smul (q : Z) (p : Z * Z) : Z * Z := if 0 <=? q then (fl (q * fst p), ce (q * snd p)) else (fl (q * snd p), ce (q * fst p)).
Fixpoint pmulI (a : list Z) (b : list (Z * Z)) : list (Z * Z) := match a with [] => [] | c :: a' => paddI (map (smul c) b) ((0, 0) :: pmulI a' b) end.
Lemma paddI_ok ps l : Forall2 iv ps l -> forall qs m, Forall2 iv qs m -> Forall2 iv (paddI ps qs) (paddR l m).
Proof. induction 1 as [|p x ps l Hp Hl IH]; intros qs m [|q y qs' m' Hq Hm]; cbn [paddI paddR]; auto. constructor; auto. now apply iadd_ok. Qed.
Lemma smul_ok q p r : iv p r -> iv (smul q p) (IZR q * UU * r).
Proof.
  intros [A B]. pose proof UU_pos as UP. unfold smul. assert (S : forall z, (IZR q * UU * (IZR z * UU) = IZR (q * z) * UU * UU)%R) by (intros z; rewrite mult_IZR; ring).
  destruct (Z.leb_spec 0 q) as [L|L]; unfold iv; cbn [fst snd]; split; (eapply Rle_trans; [apply fl_ok|] || (eapply Rle_trans; [|apply ce_ok])); rewrite <- S.
  - apply IZR_le in L. apply Rmult_le_compat_l; [nra|auto].
  - apply IZR_le in L. apply Rmult_le_compat_l; [nra|auto].
  - apply IZR_lt in L. apply Rmult_le_compat_neg_l; [nra|auto].
  - apply IZR_lt in L. apply Rmult_le_compat_neg_l; [nra|auto].
Qed.
Lemma pmulI_ok ps l : Forall2 iv ps l -> forall a, Forall2 iv (pmulI a ps) (pmulR (map (fun z => IZR z * UU)%R a) l).
Proof.
  intros H a. induction a as [|q a IH]; cbn [pmulI pmulR map]; [constructor|]. apply paddI_ok.
  - clear IH. induction H; cbn [map]; constructor; auto. now apply smul_ok.
  - constructor; auto. unfold iv. cbn. lra.
Qed.
(** coefficients of the code, from the highest degree down *)
Lemma polyR_horner f c t : c <> [] -> polyR f c t = hornerR (rev (map (val f) c)) t.
Proof.
  destruct c as [|c0 c]; [congruence|]. intros _. unfold polyR. cbn [hd tl].
  assert (G : forall c y l, hornerR l t = y -> fold_left (fun y a => y * t + val f a)%R c y = hornerR (rev (map (val f) c) ++ l) t).
  { clear. induction c as [|a c IH]; intros y l H; cbn [fold_left map rev app]; auto. rewrite <- app_assoc. apply IH. cbn [app]. change (hornerR (val f a :: l) t) with (val f a + t * hornerR l t)%R. rewrite H. ring. }
  cbn [map rev]. apply G. unfold hornerR. cbn. ring.
Qed.
Lemma zc_list f c : forallb (zcok f) c = true -> rev (map (val f) c) = map (fun z => IZR z * UU)%R (rev (map (zc f) c)).
Proof.
  intros H. rewrite map_rev, map_map. f_equal. induction c as [|a c IH]; auto. cbn [forallb map] in *. apply andb_prop in H. destruct H as [H1 H2]. rewrite (zc_ok _ _ H1), (IH H2). reflexivity.
Qed.
Lemma ipt_list l : Forall2 iv (map ipt l) (map (fun z => IZR z * UU)%R l).
Proof. induction l; cbn [map]; constructor; auto. unfold iv, ipt. cbn. lra. Qed.

(** *** P/Q against a polynomial T *)
Section Rat.
Variables (f : fmt) (P Q : list Z) (T : list R) (TI : list (Z * Z)).
Definition zD : list (Z * Z) := paddI (map ipt (rev (map (zc f) P))) (pmulI (map Z.opp (rev (map (zc f) Q))) TI).
(** n pieces of 2^-k; |z (P - Q T)| <= B; |Q - c| <= |c| - l; |P - Q T| <= B2 on [0, 1/2] *)
Definition ratchk (n : nat) (k B c l B2 : Z) : bool :=
  forallb (zcok f) P && forallb (zcok f) Q && negb (length P =? 0)%nat && negb (length Q =? 0)%nat && (0 <=? k) && (0 <? Z.of_nat n) && (0 <? l) && (2 * Z.of_nat n <=? 2 ^ k) &&
  chkI n k B ((0, 0) :: zD) && chkI (n * 8) (k + 3) (Z.abs c - l) (paddI (map ipt (rev (map (zc f) Q))) [ipt (- c)]) && (absI 1 zD <=? B2).
Hypothesis HT : Forall2 iv TI T.
Lemma rat_ok n k B c l B2 z : ratchk n k B c l B2 = true -> (0 <= z <= INR n * bpow radix2 (- k))%R ->
  (IZR l * UU <= Rabs (polyR f Q z))%R /\ (0 < IZR l * UU)%R /\ (Rabs (polyR f P z - polyR f Q z * hornerR T z) <= IZR B2 * UU)%R /\
  (Rabs (z * (polyR f P z / polyR f Q z) - z * hornerR T z) <= IZR B / IZR l)%R.
Proof.
  unfold ratchk. rewrite !andb_true_iff. intros ((((((((((H1 & H2) & H3) & H4) & H5) & H6) & H7) & H8) & H9) & H10) & H11) Hz. apply Z.leb_le in H5, H8, H11. apply Z.ltb_lt in H6, H7.
  assert (NP : P <> []) by (intros ->; discriminate). assert (NQ : Q <> []) by (intros ->; discriminate).
  assert (DD : Forall2 iv zD (paddR (map (fun z => IZR z * UU)%R (rev (map (zc f) P))) (pmulR (map (fun z => IZR z * UU)%R (map Z.opp (rev (map (zc f) Q)))) T))) by (apply paddI_ok; [apply ipt_list|apply pmulI_ok; auto]).
  assert (DV : forall t, hornerR (paddR (map (fun z => IZR z * UU)%R (rev (map (zc f) P))) (pmulR (map (fun z => IZR z * UU)%R (map Z.opp (rev (map (zc f) Q)))) T)) t = (polyR f P t - polyR f Q t * hornerR T t)%R).
  { intros t. rewrite paddR_ok, pmulR_ok, !polyR_horner, !zc_list by auto. set (lp := map _ (rev (map (zc f) P))). clearbody lp.
    assert (E : forall l, hornerR (map (fun z => IZR z * UU)%R (map Z.opp l)) t = (- hornerR (map (fun z => IZR z * UU)%R l) t)%R). { induction l0 as [|x l0 IH]; cbn [map]; unfold hornerR in *; cbn [fold_right]; [ring|]. rewrite IH, opp_IZR. ring. }
    rewrite E. ring. }
  set (D := paddR _ (pmulR _ _)) in *. clearbody D. pose proof UU_pos as UP.
  assert (L : (IZR l * UU <= Rabs (polyR f Q z))%R).
  { assert (Hz3 : (0 <= z <= INR (n * 8) * bpow radix2 (- (k + 3)))%R).
    { rewrite mult_INR. replace (bpow radix2 (- (k + 3))) with (bpow radix2 (- k) * / 8)%R by (change (/ 8)%R with (bpow radix2 (-3)); rewrite <- bpow_plus; f_equal; lia). change (INR 8) with (1 + 1 + 1 + 1 + 1 + 1 + 1 + 1)%R. lra. }
    assert (R := @chkI_ok (n * 8) (k + 3) _ ltac:(lia) _ _ _ H10 (paddI_ok (ipt_list _) (Forall2_cons _ _ (ltac:(unfold iv, ipt; cbn; lra) : iv (ipt (- c)) (IZR (- c) * UU)) (Forall2_nil _))) Hz3 ltac:(lia)).
    rewrite paddR_ok, <- (zc_list _ _ H2), <- polyR_horner in R by auto. unfold hornerR at 1 in R. cbn [fold_right] in R. rewrite Rmult_0_r, Rplus_0_r, opp_IZR, minus_IZR in R.
    assert (A : Rabs (IZR c * UU) = (IZR (Z.abs c) * UU)%R) by (rewrite Rabs_mult, (Rabs_pos_eq UU), abs_IZR by lra; reflexivity).
    assert (Rabs (IZR c * UU) <= Rabs (polyR f Q z) + Rabs (polyR f Q z + - IZR c * UU))%R; [|lra].
    replace (IZR c * UU)%R with (polyR f Q z + - (polyR f Q z + - IZR c * UU))%R at 1 by ring. eapply Rle_trans; [apply Rabs_triang|]. rewrite Rabs_Ropp. lra. }
  assert (L0 : (0 < IZR l * UU)%R) by (apply IZR_lt in H7; nra). split; auto. split; auto. split.
  - rewrite <- DV. eapply Rle_trans; [apply (@absI_ok 1 _ _ z ltac:(lia) DD)|].
    + change (bpow radix2 (- (1))) with (/ 2)%R. split; [lra|]. eapply Rle_trans; [apply Hz|]. rewrite INR_IZR_INZ. apply IZR_le in H8. rewrite mult_IZR in H8. change 2 with (radix_val radix2) in H8 at 2. rewrite IZR_Zpower in H8 by auto.
      assert (E : (bpow radix2 k * bpow radix2 (- k) = 1)%R) by (rewrite <- bpow_plus; replace (k + - k) with 0 by lia; reflexivity). pose proof (bpow_gt_0 radix2 (- k)) as B0. set (b := bpow radix2 (- k)) in *. set (bb := bpow radix2 k) in *. clearbody b bb.
      assert (IZR 2 * IZR (Z.of_nat n) * b <= bb * b)%R by (apply Rmult_le_compat_r; lra). lra.
    + apply IZR_le in H11. apply Rmult_le_compat_r; lra.
  - assert (R := @chkI_ok n k _ H5 _ _ _ H9 (Forall2_cons _ _ (ltac:(unfold iv; cbn; lra) : iv (0, 0) 0) DD) Hz ltac:(lia)). change (hornerR (0%R :: D) z) with (0 + z * hornerR D z)%R in R. rewrite DV, Rplus_0_l in R.
    assert (NZ : polyR f Q z <> 0%R) by (intros E; rewrite E, Rabs_R0 in L; lra). assert (PQ : (0 < Rabs (polyR f Q z))%R) by (now apply Rabs_pos_lt).
    replace (z * (polyR f P z / polyR f Q z) - z * hornerR T z)%R with (z * (polyR f P z - polyR f Q z * hornerR T z) / polyR f Q z)%R by (field; auto).
    unfold Rdiv at 1. rewrite Rabs_mult, Rabs_inv. apply Rmult_le_reg_r with (Rabs (polyR f Q z)); auto. rewrite Rmult_assoc, Rinv_l, Rmult_1_r by lra. eapply Rle_trans; [exact R|].
    apply IZR_lt in H7. assert (B0 : (0 <= IZR B)%R). { assert (0 <= IZR B * UU)%R by (eapply Rle_trans; [apply Rabs_pos|exact R]). apply Rmult_le_reg_r with UU; lra. }
    apply Rle_trans with (IZR B / IZR l * (IZR l * UU))%R. { right. field. lra. } apply Rmult_le_compat_l; [|exact L]. apply Rmult_le_pos; [lra|]. left. now apply Rinv_0_lt_compat.
Qed.
End Rat.

(** *** rounding error of a quotient: |s| >= l, |r / s| <= M *)
Definition qdiv (e1 e2 l M : Z) : Z := ((e1 + cd (M * e2)) * 2 ^ 140) / (l - e2) + 1.
Definition Ediv (f : fmt) e1 e2 l M : Z := qdiv e1 e2 l M + rr f (M + qdiv e1 e2 l M).
Definition Mdiv (f : fmt) e1 e2 l M : Z := M + qdiv e1 e2 l M + rr f (M + qdiv e1 e2 l M).
Lemma ap_div nn f x r e1 m1 y s e2 m2 l M : ap f x r e1 m1 -> ap f y s e2 m2 -> 0 <= M -> e2 < l -> (IZR l * UU <= Rabs s)%R -> (Rabs (r / s) <= IZR M * UU)%R -> over f (M + qdiv e1 e2 l M) = true ->
  ap f (fdiv nn f x y) (r / s) (Ediv f e1 e2 l M) (Mdiv f e1 e2 l M).
Proof.
  intros (Wx & Fx & Ex & Mx & Px & Qx) (Wy & Fy & Ey & My & Py & Qy) HM Hl Ls Bq Ho. pose proof UU_pos as UP. pose proof UU_inv as UI.
  assert (L1 : (0 < IZR (l - e2))%R) by (apply IZR_lt; lia).
  assert (Ly : (IZR (l - e2) * UU <= Rabs (val f y))%R).
  { rewrite minus_IZR. assert (Rabs s <= Rabs (val f y) + Rabs (val f y - s))%R; [|lra]. replace s with (val f y + - (val f y - s))%R at 1 by ring. eapply Rle_trans; [apply Rabs_triang|]. rewrite Rabs_Ropp. lra. }
  assert (Py0 : (0 < Rabs (val f y))%R) by (assert (0 < IZR (l - e2) * UU)%R by nra; lra). assert (Ny : val f y <> 0%R) by (intros E; rewrite E, Rabs_R0 in Py0; lra).
  assert (Ns : s <> 0%R). { intros E. rewrite E, Rabs_R0 in Ls. assert (0 < IZR l)%R by (apply IZR_lt; lia). nra. }
  assert (D0 : 0 <= e1 + cd (M * e2)) by (pose proof (@cd_ge0 (M * e2) ltac:(nia)); lia).
  assert (QE : (Rabs (val f x / val f y - r / s) <= IZR (qdiv e1 e2 l M) * UU)%R).
  { replace (val f x / val f y - r / s)%R with (((val f x - r) + (r / s) * (s - val f y)) / val f y)%R by (field; auto).
    unfold Rdiv at 1. rewrite Rabs_mult, Rabs_inv. apply Rmult_le_reg_r with (Rabs (val f y)); auto. rewrite Rmult_assoc, Rinv_l, Rmult_1_r by lra.
    apply Rle_trans with (IZR (e1 + cd (M * e2)) * UU)%R.
    - eapply Rle_trans; [apply Rabs_triang|]. rewrite plus_IZR, Rmult_plus_distr_r. apply Rplus_le_compat; auto. rewrite Rabs_mult, (Rabs_minus_sym s). eapply Rle_trans; [|apply cd_ok].
      rewrite mult_IZR. replace (IZR M * IZR e2 * UU * UU)%R with ((IZR M * UU) * (IZR e2 * UU))%R by ring. apply Rmult_le_compat; auto using Rabs_pos.
    - assert (V := @div_up ((e1 + cd (M * e2)) * 2 ^ 140) (l - e2) ltac:(lia)). fold (qdiv e1 e2 l M) in V. rewrite mult_IZR in V. set (d := IZR (e1 + cd (M * e2))) in *. set (q := IZR (qdiv e1 e2 l M)) in *.
      assert (V2 : (d * IZR (2 ^ 140) <= q * IZR (l - e2))%R). { apply Rmult_le_compat_r with (r := IZR (l - e2)) in V; [|lra]. unfold Rdiv in V. rewrite Rmult_assoc, Rinv_l, Rmult_1_r in V by lra. exact V. }
      assert (Q0 : (0 <= q)%R). { assert (0 <= d)%R by (apply IZR_le; lia). assert (0 < IZR (2 ^ 140))%R by (apply IZR_lt; reflexivity). assert (0 <= q * IZR (l - e2))%R by nra. apply Rmult_le_reg_r with (IZR (l - e2)); lra. }
      apply Rle_trans with (q * UU * (IZR (l - e2) * UU))%R; [|apply Rmult_le_compat_l; [nra|auto]].
      apply Rmult_le_compat_r with (r := (UU * UU)%R) in V2; [|nra]. replace (d * IZR (2 ^ 140) * (UU * UU))%R with (d * UU * (IZR (2 ^ 140) * UU))%R in V2 by ring. rewrite UI in V2. lra. }
  assert (Q0 : 0 <= qdiv e1 e2 l M). { unfold qdiv. assert (0 <= (e1 + cd (M * e2)) * 2 ^ 140) by nia. pose proof (Z.div_pos _ (l - e2) H ltac:(lia)). lia. }
  unfold Ediv, Mdiv. apply ap_round with (val f x / val f y)%R; try lia; auto.
  - rewrite plus_IZR, Rmult_plus_distr_r. replace (val f x / val f y)%R with (r / s + (val f x / val f y - r / s))%R by ring. eapply Rle_trans; [apply Rabs_triang|]. lra.
  - apply fdiv_word.
  - destruct (div_ok nn Wx Wy) as (_ & C & _). apply (C Fx Fy). intros Z. apply Ny. apply (iszero_mag Wy) in Z. now apply (val_zero f Wy Fy).
Qed.
Close Scope Z_scope.
