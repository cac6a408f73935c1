(** The polynomials of sin and cos against the functions: Taylor's formula with remainder (standard library) and interval evaluation. *)
From Coq Require Import ZArith Reals Lra Lia List Bool Rtrigo_alt.
From Flocq Require Import Core.
From Coq Require Import ZifyBool.
From Verif Require Import Base Cxx Spec X86Vec X86 X86Lemmas X86Proofs Fp FpLemmas FpOps FMath FMathProofs FLane FFields PropManip PropLog FErr IvPoly TrigTab.
Import ListNotations.
Open Scope Z_scope.

Fixpoint zfact (n : nat) : Z := match n with O => 1 | S k => Z.of_nat n * zfact k end.
Lemma zfact_ok n : INR (fact n) = IZR (zfact n).
Proof. induction n as [|n IH]; [reflexivity|]. change (fact (S n)) with (S n * fact n)%nat. cbn [zfact]. rewrite mult_INR, mult_IZR, IH, INR_IZR_INZ. reflexivity. Qed.
(** 1 / n! with the sign of the Taylor coefficient *)
Definition tc (s : bool) (n : nat) : R := ((if s then -1 else 1) / IZR (zfact n))%R.

Definition sinT (th : R) : list R := [tc true 3; tc false 5; tc true 7; tc false 9; tc true 11; tc false 13; tc true 15; tc false 17; tc true 19; (th * tc false 21)%R].
Definition cosT (th : R) : list R := [tc false 4; tc true 6; tc false 8; tc true 10; tc false 12; tc true 14; tc false 16; tc true 18; (th * tc false 20)%R].
Lemma frac_theta s lo hi : (lo <= s <= hi)%R -> exists th, (0 <= th <= 1)%R /\ s = (lo + th * (hi - lo))%R.
Proof.
  intros [A B]. destruct (Req_dec lo hi) as [->|N]. { exists 0%R. lra. }
  exists ((s - lo) / (hi - lo))%R. assert (0 < hi - lo)%R by lra. split; [split|].
  - apply Rmult_le_pos; [lra|]. left. now apply Rinv_0_lt_compat.
  - apply Rmult_le_reg_r with (hi - lo)%R; auto. unfold Rdiv. rewrite Rmult_assoc, Rinv_l by lra. lra.
  - field. lra.
Qed.
Lemma sin_taylor v : (0 <= v <= 4)%R -> exists th, (0 <= th <= 1)%R /\ sin v = (v + v * (v * v) * hornerR (sinT th) (v * v))%R.
Proof.
  intros [A B]. destruct (frac_theta _ _ _ (pre_sin_bound v 4 A B)) as (th & Ht & E). exists th. split; auto. rewrite E.
  change (2 * 4 + 1)%nat with 9%nat. change (2 * (4 + 1))%nat with 10%nat. unfold sin_approx. cbn [sum_f_R0]. unfold sin_term. rewrite !zfact_ok.
  unfold sinT, hornerR, tc. cbn [fold_right]. cbn [Nat.mul Nat.add pow].
  repeat match goal with |- context [IZR (zfact ?n)] => let z := eval vm_compute in (zfact n) in change (zfact n) with z end. field.
Qed.
Lemma cos_taylor v : (-2 <= v <= 2)%R -> exists th, (0 <= th <= 1)%R /\ cos v = (1 - v * v / 2 + (v * v) * (v * v) * hornerR (cosT th) (v * v))%R.
Proof.
  intros [A B]. destruct (frac_theta _ _ _ (pre_cos_bound v 4 A B)) as (th & Ht & E). exists th. split; auto. rewrite E.
  change (2 * 4 + 1)%nat with 9%nat. change (2 * (4 + 1))%nat with 10%nat. unfold cos_approx. cbn [sum_f_R0]. unfold cos_term. rewrite !zfact_ok.
  unfold cosT, hornerR, tc. cbn [fold_right]. cbn [Nat.mul Nat.add pow].
  repeat match goal with |- context [IZR (zfact ?n)] => let z := eval vm_compute in (zfact n) in change (zfact n) with z end. field.
Qed.
(** constants as multiples of 2^-140 *)
Definition zc (f : fmt) (c : Z) : Z := let k := fmag (fw f) c in (if fsign (fw f) c then -1 else 1) * (msig f k * 2 ^ (mex f k + 140)).
Definition zcok (f : fmt) (c : Z) : bool := apok f c && (0 <=? mex f (fmag (fw f) c) + 140).
Lemma zc_ok f c : zcok f c = true -> val f c = (IZR (zc f c) * UU)%R.
Proof.
  unfold zcok, apok. intros H. assert (Wc : word (fw f) c) by (unfold word; lia). assert (Fc : isfin f c = true) by (rewrite (isfin_spec Wc); lia).
  rewrite (val_mag Wc Fc). unfold mval, zc. cbv zeta. set (e := mex f (fmag (fw f) c)) in *. rewrite !mult_IZR. change 2 with (radix_val radix2). rewrite IZR_Zpower by lia.
  replace (bpow radix2 e) with (bpow radix2 (e + 140) * UU)%R by (unfold UU; rewrite <- bpow_plus; f_equal; lia). destruct (fsign _ c); cbn [IZR]; ring.
Qed.
Definition ivt (s : bool) (n : nat) : Z * Z := let q := S140 / zfact n in if s then (- (q + 1), - q) else (q, q + 1).
Lemma zfact_pos n : 0 < zfact n. Proof. induction n; cbn [zfact]; [lia|]. nia. Qed.
Lemma inv_iv d : 0 < d -> iv (S140 / d, S140 / d + 1) (1 / IZR d).
Proof.
  intros Hd. pose proof (IZR_lt _ _ Hd) as Pd. pose proof UU_pos as UP. pose proof UU_inv as I. fold S140 in I. pose proof (Z_div_mod_eq_full S140 d) as M. pose proof (Z.mod_pos_bound S140 d Hd) as Bd. set (q := S140 / d) in *.
  unfold iv. cbn [fst snd]. assert (E : (1 / IZR d = IZR S140 * UU / IZR d)%R) by now rewrite I. rewrite E. split.
  - apply Rmult_le_reg_r with (IZR d); auto. unfold Rdiv. rewrite (Rmult_assoc _ (/ IZR d)), Rinv_l, Rmult_1_r by lra. replace (IZR q * UU * IZR d)%R with (IZR (d * q) * UU)%R by (rewrite mult_IZR; ring). apply Rmult_le_compat_r; [lra|]. apply IZR_le. lia.
  - apply Rmult_le_reg_r with (IZR d); auto. unfold Rdiv. rewrite (Rmult_assoc _ (/ IZR d)), Rinv_l, Rmult_1_r by lra. replace (IZR (q + 1) * UU * IZR d)%R with (IZR (d * (q + 1)) * UU)%R by (rewrite mult_IZR; ring). apply Rmult_le_compat_r; [lra|]. apply IZR_le. lia.
Qed.
Lemma ivt_ok s n : iv (ivt s n) (tc s n).
Proof.
  pose proof (inv_iv _ (zfact_pos n)) as [A B]. unfold ivt, tc, iv in *. cbn [fst snd] in *. destruct s; cbn [fst snd]; [|split; [exact A|exact B]].
  rewrite !opp_IZR. replace (-1 / IZR (zfact n))%R with (- (1 / IZR (zfact n)))%R by (unfold Rdiv; ring). lra.
Qed.
Definition isubc (p q : Z * Z) : Z * Z := (fst p - snd q, snd p - fst q).
Lemma isubc_ok p q r s : iv p r -> iv q s -> iv (isubc p q) (r - s).
Proof. unfold iv, isubc. cbn [fst snd]. rewrite !minus_IZR, !Rmult_minus_distr_r. lra. Qed.
Definition ineg (p : Z * Z) : Z * Z := (- snd p, - fst p).
Lemma ineg_ok p r : iv p r -> iv (ineg p) (- r).
Proof. unfold iv, ineg. cbn [fst snd]. rewrite !opp_IZR. lra. Qed.
Definition ipt (z : Z) : Z * Z := (z, z).
Lemma ipt_ok f c : zcok f c = true -> iv (ipt (zc f c)) (val f c).
Proof. intros H. unfold iv, ipt. cbn [fst snd]. rewrite (zc_ok _ _ H). lra. Qed.
Definition ith (n : nat) : Z * Z := (0, S140 / zfact n + 1).
Lemma ith_ok th n : (0 <= th <= 1)%R -> iv (ith n) (th * tc false n).
Proof.
  intros Ht. pose proof (ivt_ok false n) as [A B]. unfold ivt, ith, iv in *. cbn [fst snd] in *. assert (P : (0 <= tc false n)%R). { unfold tc, Rdiv. rewrite Rmult_1_l. left. apply Rinv_0_lt_compat. apply IZR_lt, zfact_pos. }
  split; [nra|]. assert (th * tc false n <= tc false n)%R by nra. lra.
Qed.
(** differences of coefficients: polynomial - Taylor; coefficients of the code from the highest degree down *)
Definition sinD (f : fmt) (th : R) (c : list Z) : list R :=
  match c with
  | [c0; c1; c2; c3; c4; c5] => [(val f c5 - tc true 3)%R; (val f c4 - tc false 5)%R; (val f c3 - tc true 7)%R; (val f c2 - tc false 9)%R; (val f c1 - tc true 11)%R; (val f c0 - tc false 13)%R;
      (- tc true 15)%R; (- tc false 17)%R; (- tc true 19)%R; (- (th * tc false 21))%R]
  | _ => []
  end.
Definition sinI (f : fmt) (c : list Z) : list (Z * Z) :=
  match c with
  | [c0; c1; c2; c3; c4; c5] => [isubc (ipt (zc f c5)) (ivt true 3); isubc (ipt (zc f c4)) (ivt false 5); isubc (ipt (zc f c3)) (ivt true 7); isubc (ipt (zc f c2)) (ivt false 9);
      isubc (ipt (zc f c1)) (ivt true 11); isubc (ipt (zc f c0)) (ivt false 13); ineg (ivt true 15); ineg (ivt false 17); ineg (ivt true 19); ineg (ith 21)]
  | _ => []
  end.
Definition cosD (f : fmt) (th : R) (c : list Z) : list R :=
  match c with
  | [c0; c1; c2; c3; c4; c5] => [(val f c5 - tc false 4)%R; (val f c4 - tc true 6)%R; (val f c3 - tc false 8)%R; (val f c2 - tc true 10)%R; (val f c1 - tc false 12)%R; (val f c0 - tc true 14)%R;
      (- tc false 16)%R; (- tc true 18)%R; (- (th * tc false 20))%R]
  | _ => []
  end.
Definition cosI (f : fmt) (c : list Z) : list (Z * Z) :=
  match c with
  | [c0; c1; c2; c3; c4; c5] => [isubc (ipt (zc f c5)) (ivt false 4); isubc (ipt (zc f c4)) (ivt true 6); isubc (ipt (zc f c3)) (ivt false 8); isubc (ipt (zc f c2)) (ivt true 10);
      isubc (ipt (zc f c1)) (ivt false 12); isubc (ipt (zc f c0)) (ivt true 14); ineg (ivt false 16); ineg (ivt true 18); ineg (ith 20)]
  | _ => []
  end.
Lemma iv2_cons p q ps rs : iv p q -> Forall2 iv ps rs -> Forall2 iv (p :: ps) (q :: rs). Proof. now constructor. Qed.
Lemma iv_c f c s n : zcok f c = true -> iv (isubc (ipt (zc f c)) (ivt s n)) (val f c - tc s n). Proof. intros H. apply isubc_ok; [now apply ipt_ok|apply ivt_ok]. Qed.
Lemma iv_n s n : iv (ineg (ivt s n)) (- tc s n). Proof. apply ineg_ok, ivt_ok. Qed.
Lemma iv_t th n : (0 <= th <= 1)%R -> iv (ineg (ith n)) (- (th * tc false n)). Proof. intros H. now apply ineg_ok, ith_ok. Qed.
Lemma sinI_ok f th c : forallb (zcok f) c = true -> (0 <= th <= 1)%R -> Forall2 iv (sinI f c) (sinD f th c).
Proof.
  intros Hc Ht. unfold sinI, sinD. destruct c as [|c0 [|c1 [|c2 [|c3 [|c4 [|c5 [|]]]]]]]; try apply Forall2_nil. cbn [forallb] in Hc. rewrite !andb_true_iff in Hc. destruct Hc as (H0 & H1 & H2 & H3 & H4 & H5 & _).
  exact (iv2_cons _ _ _ _ (iv_c _ _ _ _ H5) (iv2_cons _ _ _ _ (iv_c _ _ _ _ H4) (iv2_cons _ _ _ _ (iv_c _ _ _ _ H3) (iv2_cons _ _ _ _ (iv_c _ _ _ _ H2) (iv2_cons _ _ _ _ (iv_c _ _ _ _ H1) (iv2_cons _ _ _ _ (iv_c _ _ _ _ H0)
    (iv2_cons _ _ _ _ (iv_n _ _) (iv2_cons _ _ _ _ (iv_n _ _) (iv2_cons _ _ _ _ (iv_n _ _) (iv2_cons _ _ _ _ (iv_t _ _ Ht) (Forall2_nil _))))))))))).
Qed.
Lemma cosI_ok f th c : forallb (zcok f) c = true -> (0 <= th <= 1)%R -> Forall2 iv (cosI f c) (cosD f th c).
Proof.
  intros Hc Ht. unfold cosI, cosD. destruct c as [|c0 [|c1 [|c2 [|c3 [|c4 [|c5 [|]]]]]]]; try apply Forall2_nil. cbn [forallb] in Hc. rewrite !andb_true_iff in Hc. destruct Hc as (H0 & H1 & H2 & H3 & H4 & H5 & _).
  exact (iv2_cons _ _ _ _ (iv_c _ _ _ _ H5) (iv2_cons _ _ _ _ (iv_c _ _ _ _ H4) (iv2_cons _ _ _ _ (iv_c _ _ _ _ H3) (iv2_cons _ _ _ _ (iv_c _ _ _ _ H2) (iv2_cons _ _ _ _ (iv_c _ _ _ _ H1) (iv2_cons _ _ _ _ (iv_c _ _ _ _ H0)
    (iv2_cons _ _ _ _ (iv_n _ _) (iv2_cons _ _ _ _ (iv_n _ _) (iv2_cons _ _ _ _ (iv_t _ _ Ht) (Forall2_nil _)))))))))).
Qed.
(** the ideal value of the code's Horner scheme *)
Definition polyR (f : fmt) (c : list Z) (t : R) : R := fold_left (fun y a => y * t + val f a)%R (tl c) (val f (hd 0 c)).
Definition psinR (f : fmt) (c : list Z) (v : R) : R := (polyR f c (v * v) * (v * v) * v + v)%R.
Definition pcosR (f : fmt) (c : list Z) (v : R) : R := (val f (c_mhalf (fw f)) * (v * v) + polyR f c (v * v) * ((v * v) * (v * v)) + 1)%R.
Lemma psin_diff f c v n h B : length c = 6%nat -> forallb (zcok f) c = true -> isub n h B ((0, 0) :: sinI f c) = true -> 0 <= h -> (0 < n)%nat -> (Rabs v <= 2)%R -> (v * v <= IZR (Z.of_nat n * h) * UU)%R ->
  (Rabs (psinR f c v - sin v) <= Rabs v * (IZR B * UU))%R.
Proof.
  intros Lc Zc Is Hh Hn Hv Ht.
  assert (P : forall v, (0 <= v <= 2)%R -> (v * v <= IZR (Z.of_nat n * h) * UU)%R -> (Rabs (psinR f c v - sin v) <= Rabs v * (IZR B * UU))%R).
  { clear v Hv Ht. intros v Hv Ht. destruct (sin_taylor v ltac:(lra)) as (th & Hth & E).
    assert (D : (psinR f c v - sin v = v * hornerR (0 :: sinD f th c)%R (v * v))%R).
    { rewrite E. unfold psinR, polyR, sinT. destruct c as [|c0 [|c1 [|c2 [|c3 [|c4 [|c5 [|]]]]]]]; try discriminate. cbn [sinD hornerR fold_right fold_left tl hd]. ring. }
    rewrite D, Rabs_mult. apply Rmult_le_compat_l; [apply Rabs_pos|].
    apply (isub_ok n h B ((0, 0) :: sinI f c)); auto. { constructor; [unfold iv; cbn; lra|now apply sinI_ok]. } split; [nra|exact Ht]. }
  destruct (Rle_lt_dec 0 v) as [L|L].
  - apply P; auto. rewrite Rabs_pos_eq in Hv by auto. lra.
  - assert (Hv' : (0 <= - v <= 2)%R) by (rewrite Rabs_left in Hv by auto; lra). specialize (P (- v)%R Hv' ltac:(replace (- v * - v)%R with (v * v)%R by ring; exact Ht)).
    rewrite Rabs_Ropp in P. replace (- v * - v)%R with (v * v)%R in P by ring. replace (psinR f c (- v) - sin (- v))%R with (- (psinR f c v - sin v))%R in P; [now rewrite Rabs_Ropp in P|].
    rewrite sin_neg. unfold psinR. replace (- v * - v)%R with (v * v)%R by ring. ring.
Qed.
Lemma mhalf_val f : val f (c_mhalf (fw f)) = (- / 2)%R.
Proof.
  rewrite zc_ok by (destruct f; reflexivity). replace (zc f (c_mhalf (fw f))) with (- 2 ^ 139)%Z by (destruct f; reflexivity). rewrite opp_IZR. pose proof UU_inv as I.
  replace (2 ^ 140) with (2 * 2 ^ 139) in I by reflexivity. rewrite mult_IZR in I. lra.
Qed.
Lemma pcos_diff f c v n h B : length c = 6%nat -> forallb (zcok f) c = true -> isub n h B ((0, 0) :: cosI f c) = true -> 0 <= h -> (0 < n)%nat -> (Rabs v <= 2)%R -> (v * v <= IZR (Z.of_nat n * h) * UU)%R ->
  (Rabs (pcosR f c v - cos v) <= (v * v) * (IZR B * UU))%R.
Proof.
  intros Lc Zc Is Hh Hn Hv Ht. assert (Hv2 : (-2 <= v <= 2)%R) by (apply Rabs_le_inv; exact Hv). destruct (cos_taylor v Hv2) as (th & Hth & E).
  assert (D : (pcosR f c v - cos v = (v * v) * hornerR (0 :: cosD f th c)%R (v * v))%R).
  { rewrite E. unfold pcosR, polyR, cosT. rewrite mhalf_val. destruct c as [|c0 [|c1 [|c2 [|c3 [|c4 [|c5 [|]]]]]]]; try discriminate. cbn [cosD hornerR fold_right fold_left tl hd]. lra. }
  rewrite D, Rabs_mult, Rabs_pos_eq by nra. apply Rmult_le_compat_l; [nra|]. apply (isub_ok n h B ((0, 0) :: cosI f c)); auto. { constructor; [unfold iv; cbn; lra|now apply cosI_ok]. } split; [nra|exact Ht].
Qed.
Close Scope Z_scope.
