(** The error of asin and acos. *)
From Coq Require Import ZifyBool ZifyNat Reals Ratan Lra.
From Flocq Require Import Core IEEE754.BinarySingleNaN IEEE754.Binary.
From Flocq.Prop Require Mult_error.
From Verif Require Import Base Cxx Spec X86Vec X86 X86Lemmas X86Proofs Fp FpLemmas FpOps FMath FMathProofs FLane FFields FManip FManipLanes PropManip Round RoundProofs RoundSem FArith PropArith FCvt PropHypot PropIeee PropLog FErr IvPoly TrigTab Trig TrigProofs PropTrig SinPoly SinEval SinRed SinAcc PropSin PropTrigSpec ArcSer RatPoly ArcKern ArcNum ArcAtan.
Set Implicit Arguments.
Open Scope Z_scope.

(** the series with z / 2 for z *)
Fixpoint hlf (c : R) (l : list R) : list R := match l with [] => [] | x :: l' => (c * x)%R :: hlf (c / 2) l' end.
Lemma hlf_ok l : forall c z, hornerR (hlf c l) z = (c * hornerR l (z / 2))%R.
Proof. induction l as [|x l IH]; intros c z; cbn [hlf]; unfold hornerR in *; cbn [fold_right]; [ring|]. rewrite IH. field. Qed.
Fixpoint hlfI (j : Z) (l : list (Z * Z)) : list (Z * Z) := match l with [] => [] | p :: l' => (fst p / 2 ^ j, - (- snd p / 2 ^ j)) :: hlfI (j + 1) l' end.
Lemma div_down a b : 0 < b -> (IZR (a / b) <= IZR a / IZR b)%R.
Proof.
  intros Hb. apply IZR_lt in Hb as Pb. apply Rmult_le_reg_r with (IZR b); auto. unfold Rdiv. rewrite Rmult_assoc, Rinv_l, Rmult_1_r, <- mult_IZR by lra. apply IZR_le. pose proof (Z.mul_div_le a b Hb). lia.
Qed.
Lemma hlfI_ok l : forall T j, 0 <= j -> Forall2 iv l T -> Forall2 iv (hlfI j l) (hlf (bpow radix2 (- j)) T).
Proof.
  induction l as [|p l IH]; intros T j Hj H; inversion H as [|? x ? T' Hp HT]; subst; cbn [hlfI hlf]; constructor.
  - destruct Hp as [A B]. pose proof UU_pos as UP. pose proof (pow2_pos j Hj) as P2. assert (E : bpow radix2 (- j) = (/ IZR (2 ^ j))%R). { rewrite bpow_opp. f_equal. change 2 with (radix_val radix2). now rewrite IZR_Zpower. } apply IZR_lt in P2 as PR. pose proof (bpow_gt_0 radix2 (- j)) as B0.
    unfold iv. cbn [fst snd]. split.
    + pose proof (@div_down (fst p) _ P2) as D. unfold Rdiv in D. rewrite <- E in D. apply Rle_trans with (IZR (fst p) * bpow radix2 (- j) * UU)%R; [apply Rmult_le_compat_r; lra|]. replace (IZR (fst p) * bpow radix2 (- j) * UU)%R with (bpow radix2 (- j) * (IZR (fst p) * UU))%R by ring. apply Rmult_le_compat_l; lra.
    + pose proof (@div_down (- snd p) _ P2) as D. unfold Rdiv in D. rewrite <- E, opp_IZR in D. rewrite opp_IZR. apply Rle_trans with (IZR (snd p) * bpow radix2 (- j) * UU)%R; [|apply Rmult_le_compat_r; lra]. replace (IZR (snd p) * bpow radix2 (- j) * UU)%R with (bpow radix2 (- j) * (IZR (snd p) * UU))%R by ring. apply Rmult_le_compat_l; lra.
  - replace (bpow radix2 (- j) / 2)%R with (bpow radix2 (- (j + 1))). { apply IH; auto. lia. } replace (- (j + 1)) with (- j + -1) by lia. rewrite bpow_plus. cbn. lra.
Qed.
Definition ahT : list R := hlf (bpow radix2 (- (1))) asT.
Definition ahTI : list (Z * Z) := hlfI 1 asTI.
Lemma ahTI_ok : Forall2 iv ahTI ahT. Proof. apply hlfI_ok; [lia|exact asTI_ok]. Qed.
Lemma ahT_val z : (z * hornerR ahT z = z / 2 * hornerR asT (z / 2))%R.
Proof. unfold ahT. rewrite hlf_ok. change (bpow radix2 (- (1))) with (/ 2)%R. unfold Rdiv. ring. Qed.

(** z P(z)/Q(z), z exact *)
Definition kernW (f : fmt) (P Q : list Z) (TI : list (Z * Z)) (ma n : Z) (k l B2 M : Z) : Z * Z * bool :=
  let '(ep, mp, o1) := pbound f 0 ma P in let '(eq, mq, o2) := pbound f 0 ma Q in
  let ed := Ediv f ep eq l M in let md := Mdiv f ep eq l M in
  (Emul (f := f) 0 ma ed md, Mmul (f := f) ma md,
   o1 && o2 && (over f (M + qdiv ep eq l M) && over f (cd (ma * md)) && (eq <? l) && (0 <=? M) && (0 <=? ma) && (B2 * 2 ^ 140 <=? (M - absI 1 TI) * l) && (ma <=? n * 2 ^ (140 - k)) && (0 <=? n))).
Section W.
Context {X : xty} (HX : xty_ok X) (HF : is_int (xT X) = false) (fm : bool) (nn : nans).
Local Notation f := (xf X).
Local Notation W := (fw f).
Variables (P Q : list Z) (T : list R) (TI : list (Z * Z)).
Hypothesis HT : Forall2 iv TI T.
Variables (ma n k B c l B2 M ew mw : Z).
Hypotheses (RC : ratchk f P Q TI (Z.to_nat n) k B c l B2 = true) (KB : kernW f P Q TI ma n k l B2 M = (ew, mw, true)) (Hk : 0 <= k <= 140).
Lemma kernW_ok z : word W z -> isfin f z = true -> (0 <= val f z <= IZR ma * UU)%R ->
  let w := fmul nn f z (fdiv nn f (polevl1 (X := X) fm nn z P) (polevl1 (X := X) fm nn z Q)) in
  word W w /\ isfin f w = true /\ (Rabs (val f w - val f z * hornerR T (val f z)) <= IZR ew * UU + IZR B / IZR l)%R.
Proof.
  intros Wz Fz Bz w. unfold kernW in KB. destruct (pbound _ _ _ P) as [[ep mp] o1] eqn:Q1. destruct (pbound _ _ _ Q) as [[eq mq] o2] eqn:Q2.
  apply pair_equal_spec in KB. destruct KB as [KB1 HO]. apply pair_equal_spec in KB1. destruct KB1 as [E1 E2]. rewrite !andb_true_iff in HO. destruct HO as ((-> & ->) & (((((((O2 & O3) & O4) & O5) & O6) & O8) & O9) & N0)).
  apply Z.leb_le in O5, O6, O8, O9, N0. apply Z.ltb_lt in O4. pose proof UU_pos as UP. pose proof UU_inv as UI.
  set (v := val f z) in *.
  assert (Vz : (v <= INR (Z.to_nat n) * bpow radix2 (- k))%R).
  { apply Rle_trans with (IZR ma * UU)%R; [lra|]. apply IZR_le in O9. rewrite (mult_IZR n) in O9. change 2 with (radix_val radix2) in O9 at 1. rewrite IZR_Zpower in O9 by lia.
    rewrite INR_IZR_INZ, Z2Nat.id by auto. replace (bpow radix2 (- k)) with (bpow radix2 (140 - k) * UU)%R by (unfold UU; rewrite <- !bpow_plus; f_equal; lia). rewrite <- Rmult_assoc. apply Rmult_le_compat_r; lra. }
  destruct (rat_ok _ _ _ HT _ _ _ _ _ _ RC (conj (proj1 Bz) Vz)) as (L1 & L2 & L3 & L4).
  assert (Vh : (v <= / 2)%R). { clear -Vz RC. unfold ratchk in RC. rewrite !andb_true_iff in RC. destruct RC as ((((((((((_ & _) & _) & _) & H5) & _) & _) & H8) & _) & _) & _). apply Z.leb_le in H5, H8. eapply Rle_trans; [exact Vz|].
    rewrite INR_IZR_INZ. apply IZR_le in H8. rewrite mult_IZR in H8. change 2 with (radix_val radix2) in H8 at 2. rewrite IZR_Zpower in H8 by auto.
    assert (E : (bpow radix2 k * bpow radix2 (- k) = 1)%R) by (rewrite <- bpow_plus; replace (k + - k) with 0 by lia; reflexivity). pose proof (bpow_gt_0 radix2 (- k)) as B0. set (bb := bpow radix2 (- k)) in *. set (bc := bpow radix2 k) in *. clearbody bb bc.
    assert (IZR 2 * IZR (Z.of_nat (Z.to_nat n)) * bb <= bc * bb)%R by (apply Rmult_le_compat_r; lra). lra. }
  assert (Mq : (Rabs (polyR f P v / polyR f Q v) <= IZR M * UU)%R).
  { assert (NZ : polyR f Q v <> 0%R) by (intros E; rewrite E, Rabs_R0 in L1; lra). assert (PQ : (0 < Rabs (polyR f Q v))%R) by (now apply Rabs_pos_lt).
    assert (TB := @absI_ok 1 TI T v ltac:(lia) HT). change (bpow radix2 (- (1))) with (/ 2)%R in TB. specialize (TB ltac:(lra)).
    replace (polyR f P v / polyR f Q v)%R with (hornerR T v + (polyR f P v - polyR f Q v * hornerR T v) / polyR f Q v)%R by (field; auto).
    eapply Rle_trans; [apply Rabs_triang|]. assert (D : (Rabs ((polyR f P v - polyR f Q v * hornerR T v) / polyR f Q v) <= IZR (M - absI 1 TI) * UU)%R); [|rewrite minus_IZR in D; lra].
    unfold Rdiv. rewrite Rabs_mult, Rabs_inv. apply Rmult_le_reg_r with (Rabs (polyR f Q v)); auto. rewrite Rmult_assoc, Rinv_l, Rmult_1_r by lra. eapply Rle_trans; [exact L3|].
    apply IZR_le in O8. rewrite !mult_IZR in O8. assert (Pl : (0 < IZR l)%R) by (apply Rmult_lt_reg_r with UU; lra).
    assert (B20 : (0 <= IZR B2)%R). { assert (0 <= IZR B2 * UU)%R by (eapply Rle_trans; [apply Rabs_pos|exact L3]). apply Rmult_le_reg_r with UU; lra. }
    set (d := IZR (M - absI 1 TI)) in *. assert (D0 : (0 <= d)%R). { assert (0 < IZR (2 ^ 140))%R by (apply IZR_lt; reflexivity). assert (0 <= d * IZR l)%R by nra. apply Rmult_le_reg_r with (IZR l); lra. }
    apply Rle_trans with (d * UU * (IZR l * UU))%R; [|apply Rmult_le_compat_l; [nra|auto]]. apply Rmult_le_compat_r with (r := (UU * UU)%R) in O8; [|nra]. replace (IZR B2 * IZR (2 ^ 140) * (UU * UU))%R with (IZR B2 * UU * (IZR (2 ^ 140) * UU))%R in O8 by ring. rewrite UI in O8. lra. }
  assert (Bz' : (Rabs (val f z) <= IZR ma * UU)%R) by (fold v; rewrite Rabs_pos_eq; lra).
  assert (Az := ap_exact _ Wz Fz O6 Bz'). fold v in Az.
  assert (Ap := ap_polevl fm nn _ Az Q1). assert (Aq := ap_polevl fm nn _ Az Q2).
  assert (Ad := ap_div nn Ap Aq O5 O4 L1 Mq O2). assert (Aw := ap_mul nn Az Ad O3). rewrite E1, E2 in Aw. fold w in Aw. clearbody w. destruct Aw as (Ww & Fw & Ew & _). split; auto. split; auto. exact (tri Ew L4).
Qed.
End W.
Definition ah_B (f : fmt) : Z := match f with F32 => 2 ^ 120 | F64 => 2 ^ 96 end.
Definition ah_l : Z := 218 * 2 ^ 140.
Definition ah_K (f : fmt) : Z * Z * bool := kernW f (asin_r (fw f)) (asin_s (fw f)) ahTI (3 * 2 ^ 137) 24 6 ah_l (2 ^ 124) (5 * 2 ^ 135).
Lemma ah_rat f : ratchk f (asin_r (fw f)) (asin_s (fw f)) ahTI (Z.to_nat 24) 6 (ah_B f) (320 * 2 ^ 140) ah_l (2 ^ 124) = true. Proof. destruct f; vm_compute; reflexivity. Qed.
Lemma ah_num f : snd (ah_K f) = true /\ 100 * (fst (fst (ah_K f)) + (ah_B f * 2 ^ 140 / ah_l + 1)) <= 290 * 2 ^ (140 - prec f). Proof. destruct f; vm_compute; split; congruence. Qed.
Lemma ah_ok X (HF : is_int (xT X) = false) fm nn z : let f := xf X in word (fw f) z -> isfin f z = true -> (0 <= val f z <= 3 / 8)%R ->
  let w := fmul nn f z (fdiv nn f (polevl1 (X := X) fm nn z (asin_r (fw f))) (polevl1 (X := X) fm nn z (asin_s (fw f)))) in
  word (fw f) w /\ isfin f w = true /\ (Rabs (val f w - val f z / 2 * hornerR asT (val f z / 2)) <= 29 / 10 * bpow radix2 (- prec f))%R.
Proof.
  intros f Wz Fz Bz. destruct (ah_num f) as [N1 N2]. unfold ah_K in *. destruct (kernW _ _ _ _ _ _ _ _ _ _) as [[ew mw] o] eqn:K. cbn [fst snd] in N1, N2. subst o.
  assert (Bz' : (0 <= val f z <= IZR (3 * 2 ^ 137) * UU)%R). { pose proof UU_inv as UI. change (2 ^ 140) with (8 * 2 ^ 137) in UI. rewrite mult_IZR in *. lra. }
  destruct (@kernW_ok X HF fm nn (asin_r (fw f)) (asin_s (fw f)) ahT ahTI ahTI_ok _ _ _ (ah_B f) _ _ _ _ _ _ (ah_rat f) K ltac:(lia) z Wz Fz Bz') as (A & F & E). split; auto. split; auto.
  rewrite ahT_val in E. eapply Rle_trans; [exact E|]. apply IZR_le in N2. rewrite !mult_IZR, !plus_IZR in N2. pose proof UU_pos as UP. assert (V := @div_up (ah_B f * 2 ^ 140) ah_l ltac:(reflexivity)). rewrite plus_IZR in V.
  assert (Pu : (IZR (2 ^ (140 - prec f)) * UU = bpow radix2 (- prec f))%R). { change 2 with (radix_val radix2). rewrite IZR_Zpower by (destruct f; discriminate). unfold UU. rewrite <- bpow_plus. f_equal. lia. }
  assert (Qd : (IZR (ah_B f) / IZR ah_l = IZR (ah_B f * 2 ^ 140) / IZR ah_l * UU)%R). { rewrite mult_IZR. replace (IZR (ah_B f) * IZR (2 ^ 140) / IZR ah_l * UU)%R with (IZR (ah_B f) / IZR ah_l * (IZR (2 ^ 140) * UU))%R by (unfold Rdiv; ring). rewrite UU_inv. ring. }
  rewrite Qd, <- Pu. set (d := (IZR (ah_B f * 2 ^ 140) / IZR ah_l)%R) in *. apply Rmult_le_compat_r with (r := UU) in V; [|lra]. apply Rmult_le_compat_r with (r := UU) in N2; [|lra]. lra.
Qed.

(** facts about asin *)
Lemma asin_pos a : (0 <= a <= 1)%R -> (a <= asin a)%R.
Proof.
  intros B. destruct (asin_bound a) as [L H]. assert (S := @sin_asin a ltac:(lra)). pose proof PI2_1 as P1.
  destruct (Rlt_le_dec (asin a) 0) as [N|N]. { exfalso. pose proof (@sin_lt_0_var (asin a) ltac:(lra) N). lra. }
  destruct N as [N|N]; [|rewrite <- N in S; rewrite Rtrigo_def.sin_0 in S; lra]. pose proof (sin_lt_x _ N). lra.
Qed.
Lemma asin_half b : (0 <= b <= 1)%R -> asin (1 - 2 * (b * b)) = (PI / 2 - 2 * asin b)%R.
Proof.
  intros B. pose proof (@asin_pos b B) as P. destruct (asin_bound b) as [L H]. pose proof (@sin_asin b ltac:(lra)) as S.
  rewrite <- (asin_sin (PI / 2 - 2 * asin b)) by lra. f_equal. rewrite sin_shift, cos_2a_sin, S. ring.
Qed.
Lemma acos_half b : (0 <= b <= 1)%R -> acos (1 - 2 * (b * b)) = (2 * asin b)%R.
Proof. intros B. pose proof (@asin_half b B) as A. pose proof (acos_asin (1 - 2 * (b * b))) as E. rewrite E, A by nra. ring. Qed.
Lemma asin_near b : (Rabs b <= 5 / 8)%R -> (Rabs (asin b - b) <= Rabs b * (b * b * (222 / 1000) + bpow radix2 (-54)))%R.
Proof.
  intros B. assert (B' : (Rabs b <= IZR as_ma * UU)%R). { change as_ma with (5 * 2 ^ 137). pose proof UU_inv as UI. change (2 ^ 140) with (8 * 2 ^ 137) in UI. rewrite mult_IZR in *. lra. }
  pose proof (asin_poly _ B') as A. pose proof UU_pos as UP. assert (S2 : (b * b <= 25 / 64)%R) by (rewrite sq_abs; pose proof (Rabs_pos b); nra). assert (S0 : (0 <= b * b)%R) by nra.
  assert (TB := @absI_ok 1 asTI asT (b * b) ltac:(lia) asTI_ok). change (bpow radix2 (- (1))) with (/ 2)%R in TB. specialize (TB ltac:(lra)).
  assert (TB2 : (Rabs (hornerR asT (b * b)) <= 222 / 1000)%R). { eapply Rle_trans; [exact TB|]. assert (N : absI 1 asTI * 1000 <= 222 * 2 ^ 140) by (vm_compute; discriminate). apply IZR_le in N. rewrite !mult_IZR in N. apply Rmult_le_compat_r with (r := UU) in N; [|lra]. rewrite (Rmult_assoc (IZR 222)), UU_inv in N. change (IZR 1000) with 1000%R in N. lra. }
  assert (E : (IZR (2 ^ 86) * UU)%R = bpow radix2 (-54)). { unfold UU. change (IZR (2 ^ 86)) with (bpow radix2 86). rewrite <- bpow_plus. reflexivity. } rewrite E in A.
  replace (asin b - b)%R with ((asin b - (b + b * (b * b * hornerR asT (b * b)))) + b * (b * b * hornerR asT (b * b)))%R by ring. eapply Rle_trans; [apply Rabs_triang|]. rewrite (Rabs_mult b), (Rabs_mult (b * b)), (Rabs_pos_eq (b * b)) by auto.
  pose proof (Rabs_pos b) as B0. assert (b * b * Rabs (hornerR asT (b * b)) <= b * b * (222 / 1000))%R by (apply Rmult_le_compat_l; auto). assert (Rabs b * (b * b * Rabs (hornerR asT (b * b))) <= Rabs b * (b * b * (222 / 1000)))%R by (apply Rmult_le_compat_l; auto). lra.
Qed.
(** 2 asin (sqrt (t / 2)) in terms of s = sqrt (2 t) *)
Lemma asin_sq t : (0 <= t <= 3 / 8)%R -> let s := sqrt (2 * t) in let h := (t / 2 * hornerR asT (t / 2))%R in
  (0 <= s <= 867 / 1000)%R /\ (Rabs h <= 42 / 1000)%R /\ asin (1 - t) = (PI / 2 - 2 * asin (s / 2))%R /\ (Rabs (2 * asin (s / 2) - s * (1 + h)) <= s * bpow radix2 (-54))%R.
Proof.
  intros B s h. assert (S2 : (s * s = 2 * t)%R) by (apply sqrt_sqrt; lra). assert (S0 : (0 <= s)%R) by apply sqrt_pos. assert (SB : (s <= 867 / 1000)%R) by (clear -S2 S0 B; nra). split; auto.
  assert (E : (t / 2 = s / 2 * (s / 2))%R) by lra. clearbody s. pose proof UU_pos as UP.
  assert (TB := @absI_ok 1 asTI asT (t / 2) ltac:(lia) asTI_ok). change (bpow radix2 (- (1))) with (/ 2)%R in TB. specialize (TB ltac:(lra)).
  assert (TB2 : (Rabs (hornerR asT (t / 2)) <= 222 / 1000)%R). { eapply Rle_trans; [exact TB|]. assert (N : absI 1 asTI * 1000 <= 222 * 2 ^ 140) by (vm_compute; discriminate). apply IZR_le in N. rewrite !mult_IZR in N. apply Rmult_le_compat_r with (r := UU) in N; [|lra]. rewrite (Rmult_assoc (IZR 222)), UU_inv in N. change (IZR 1000) with 1000%R in N. lra. }
  split. { unfold h. rewrite Rabs_mult, (Rabs_pos_eq (t / 2)) by lra. apply Rle_trans with (3 / 16 * (222 / 1000))%R; [|lra]. apply Rmult_le_compat; try apply Rabs_pos; lra. }
  split. { rewrite <- asin_half by lra. f_equal. lra. }
  assert (A := @asin_poly (s / 2)). rewrite Rabs_pos_eq in A by lra. rewrite <- E in A. fold h in A.
  assert (E2 : (IZR (2 ^ 86) * UU)%R = bpow radix2 (-54)). { unfold UU. change (IZR (2 ^ 86)) with (bpow radix2 86). rewrite <- bpow_plus. reflexivity. } rewrite E2 in A.
  assert (B' : (s / 2 <= IZR as_ma * UU)%R). { change as_ma with (5 * 2 ^ 137). pose proof UU_inv as UI. change (2 ^ 140) with (8 * 2 ^ 137) in UI. rewrite mult_IZR in *. lra. } specialize (A B').
  apply Rabs_le_inv in A. apply Rabs_le. lra.
Qed.
Lemma rnd_grid f k : 0 <= k <= 2 ^ prec f -> rnd f (IZR k * bpow radix2 (- prec f)) = (IZR k * bpow radix2 (- prec f))%R.
Proof.
  intros Hk. apply rnd_id. destruct (Z.eq_dec k (2 ^ prec f)) as [-> | N].
  - change 2 with (radix_val radix2). rewrite IZR_Zpower, <- bpow_plus by (destruct f; discriminate). apply generic_format_bpow. destruct f; discriminate.
  - apply generic_format_FLT. exists (Float radix2 k (- prec f)); [reflexivity| |destruct f; discriminate]. cbn [Fnum]. change (Zpower radix2 (prec f)) with (2 ^ prec f). lia.
Qed.
Lemma val_grid f a : word (fw f) a -> isfin f a = true -> (1 / 2 <= val f a <= 1)%R -> exists k, 0 <= k <= 2 ^ prec f /\ val f a = (IZR k * bpow radix2 (- prec f))%R.
Proof.
  intros Wa Fa B. pose proof (fmt_val (f := f) a) as G. set (v := val f a) in *. destruct (Req_dec v 1) as [E|N].
  - exists (2 ^ prec f). split. { split; [|lia]. destruct f; discriminate. } rewrite E. change 2 with (radix_val radix2). rewrite IZR_Zpower, <- bpow_plus by (destruct f; discriminate). replace (prec f + - prec f) with 0 by lia. reflexivity.
  - assert (M : Raux.mag_val radix2 v (mag radix2 v) = 0). { apply mag_unique_pos. cbn. lra. }
    unfold generic_format, F2R, cexp in G. cbn [Fnum Fexp] in G. rewrite M in G. replace (SpecFloat.fexp (prec f) (emax f) 0) with (- prec f) in G by (clear; destruct f; reflexivity).
    set (k := Ztrunc _) in *. exists k. split; auto. pose proof (bpow_gt_0 radix2 (- prec f)) as B0. assert (B1 : (bpow radix2 (prec f) * bpow radix2 (- prec f) = 1)%R) by (rewrite <- bpow_plus; replace (prec f + - prec f) with 0 by lia; reflexivity).
    assert (Kb : (0 <= IZR k <= bpow radix2 (prec f))%R) by (split; apply Rmult_le_reg_r with (bpow radix2 (- prec f)); lra). rewrite <- IZR_Zpower in Kb by (clear; destruct f; discriminate). change (Zpower radix2 (prec f)) with (2 ^ prec f) in Kb. destruct Kb as [K1 K2]. apply le_IZR in K1, K2. lia.
Qed.

Section A.
Context {X : xty} (HX : xty_ok X) (HF : is_int (xT X) = false) (fm : bool) (nn : nans).
Local Notation f := (xf X).
Local Notation W := (fw f).
Local Notation u := (bpow radix2 (- prec (xf X))).
Lemma c_off_ok : word W (c_asin_off W) /\ isfin f (c_asin_off W) = true /\ (0 <= val f (c_asin_off W) <= 56 / 100 * u)%R.
Proof.
  clear. destruct f.
  - split; [unfold word; cbn; lia|]. split; [reflexivity|]. rewrite (@val_cst F32 _ 9253170 (-77)) by (try reflexivity; unfold word; cbn; lia). cbn. lra.
  - split; [unfold word; cbn; lia|]. split; [reflexivity|]. rewrite (@val_cst F64 _ 4967757600021511 (-106)) by (try reflexivity; unfold word; cbn; lia). cbn. lra.
Qed.
Lemma c_58_ok : word W (c_five_eights W) /\ isfin f (c_five_eights W) = true /\ val f (c_five_eights W) = (5 / 8)%R.
Proof.
  clear. destruct f.
  - split; [unfold word; cbn; lia|]. split; [reflexivity|]. rewrite (@val_cst F32 _ 10485760 (-24)) by (try reflexivity; unfold word; cbn; lia). cbn. lra.
  - split; [unfold word; cbn; lia|]. split; [reflexivity|]. rewrite (@val_cst F64 _ 5629499534213120 (-53)) by (try reflexivity; unfold word; cbn; lia). cbn. lra.
Qed.
Lemma c_pmin_ok : word W (c_asin_pmin W) /\ isfin f (c_asin_pmin W) = true /\ (0 <= val f (c_asin_pmin W) <= 5 / 8)%R /\ (val f (c_asin_pmin W) * val f (c_asin_pmin W) <= u)%R.
Proof.
  clear. destruct f.
  - split; [unfold word; cbn; lia|]. split; [reflexivity|]. rewrite (@val_cst F32 _ 13743895 (-37)) by (try reflexivity; unfold word; cbn; lia). cbn. lra.
  - split; [unfold word; cbn; lia|]. split; [reflexivity|]. rewrite (@val_cst F64 _ 6044629098073146 (-79)) by (try reflexivity; unfold word; cbn; lia). cbn. lra.
Qed.
Lemma eta_pmin : (3 * eta f <= 1 / 10 * (u * val f (c_asin_pmin W)))%R.
Proof.
  clear. apply Rle_trans with (bpow radix2 (- prec f - 34)).
  - apply Rle_trans with (4 * eta f)%R; [pose proof (eta_small f); lra|]. unfold eta. change 4%R with (bpow radix2 2). rewrite <- bpow_plus. apply bpow_le. destruct f; discriminate.
  - unfold Z.sub. rewrite bpow_plus. assert (P : (10 * bpow radix2 (-34) <= val f (c_asin_pmin W))%R). { destruct f; [rewrite (@val_cst F32 _ 13743895 (-37)) by (try reflexivity; unfold word; cbn; lia)|rewrite (@val_cst F64 _ 6044629098073146 (-79)) by (try reflexivity; unfold word; cbn; lia)]; cbn; lra. }
    pose proof (ub f P). change (- (34)) with (-34). lra.
Qed.
Lemma u54 : (bpow radix2 (-54) <= / 2 * u)%R. Proof. clear. destruct f; cbn; lra. Qed.
(** fmsub q w o *)
Lemma o_fms q w o : word W q -> word W w -> word W o -> isfin f q = true -> isfin f w = true -> isfin f o = true -> (Rabs (val f q * val f w) <= 4 / 100)%R -> (0 <= val f o <= / 1000)%R ->
  word W (fmsub1 (X := X) nn fm q w o) /\ isfin f (fmsub1 (X := X) nn fm q w o) = true /\ (Rabs (val f (fmsub1 (X := X) nn fm q w o) - (val f q * val f w - val f o)) <= / 10 * u)%R.
Proof.
  intros Wq Ww Wo Fq Fw Fo B Bo. pose proof (eta_u f) as EU. pose proof (pr_small f) as P0. assert (Bs : (Rabs (val f q * val f w - val f o) <= 42 / 1000)%R) by (apply Rabs_le_inv in B; apply Rabs_le; lra). unfold fmsub1. destruct fm.
  - split; [apply ffma_word|]. destruct (fneg_ok Wo) as (Wn & Fn & Vn & _). rewrite Fo in Fn. assert (C := fma_ok nn Wq Ww Wn). specialize (C (conj Fq (conj Fw Fn))). rewrite Vn in C.
    replace (val f q * val f w + - val f o)%R with (val f q * val f w - val f o)%R in C by ring. destruct (@cr_fin _ _ _ C) as [F E]; [lra|]. split; auto. pose proof (opb E EU Bs). lra.
  - split; [apply fsub_word|]. destruct (@o_mul nn f q w Wq Ww Fq Fw ltac:(lra)) as (Wp & Fp & Ep). set (p := fmul nn f q w) in *. clearbody p. pose proof (opb Ep EU B) as Ep'. 
    assert (Bp : (Rabs (val f p - val f o) <= 43 / 1000)%R) by (apply Rabs_le_inv in Ep', B; apply Rabs_le; lra).
    destruct (@o_sub nn f p o Wp Wo Fp Fo ltac:(lra)) as (_ & Fy & Ey). split; auto. pose proof (opb Ey EU Bp) as Ey'. apply Rabs_le_inv in Ep', Ey'. apply Rabs_le. lra.
Qed.
(** the branch |x| > 5/8: an absolute error below 10 u *)
Lemma asin_high a a1 t2 p1 q b d m r : word W a -> isfin f a = true -> (5 / 8 < val f a <= 1)%R ->
  a1 = fsub nn f (fone W) a -> t2 = fadd nn f a1 a1 -> p1 = fmul nn f a1 (fdiv nn f (polevl1 (X := X) fm nn a1 (asin_r W)) (polevl1 (X := X) fm nn a1 (asin_s W))) -> q = fsqrt nn f t2 ->
  b = fsub nn f (c_pio4 W) q -> d = fadd nn f b (c_pio4 W) -> m = fmsub1 (X := X) nn fm q p1 (c_asin_off W) -> r = fsub nn f d m ->
  within f (98 / 10 * u) (asin (val f a)) r.
Proof.
  intros Wa Fa B Xa1 Xt2 Xp1 Xq Xb Xd Xm Xr. pose proof (eta_small f) as E0. pose proof (eta_u f) as EU. pose proof (pr_small f) as P0. destruct (@fone_ok f) as (W1 & F1 & V1). destruct (c_pio4_ok f) as (W4 & F4 & V4). destruct c_off_ok as (Wo & Fo & Vo). destruct pi4_bounds as [PL PH]. pose proof u54 as U54.
  destruct (@val_grid f a Wa Fa ltac:(lra)) as (k & Hk & Vk). assert (KR : (bpow radix2 (prec f) * u = 1)%R) by (rewrite <- bpow_plus; replace (prec f + - prec f) with 0 by lia; reflexivity).
  assert (V1k : (1 - val f a = IZR (2 ^ prec f - k) * u)%R). { rewrite Vk, minus_IZR. change 2 with (radix_val radix2). rewrite IZR_Zpower by (clear; destruct f; discriminate). rewrite Rmult_minus_distr_r, KR. reflexivity. }
  assert (W1a : word W a1) by (rewrite Xa1; apply fsub_word).
  destruct (@x_sub nn f _ a W1 Wa F1 Fa ltac:(rewrite V1; apply Rabs_le; lra) ltac:(rewrite V1, V1k; apply rnd_grid; lia)) as [F1a V1a]. rewrite <- Xa1 in F1a, V1a. rewrite V1 in V1a. clear Xa1.
  assert (Kt : 2 * (2 ^ prec f - k) <= 2 ^ prec f). { apply le_IZR. rewrite mult_IZR. apply Rmult_le_reg_r with u; [lra|]. rewrite Rmult_assoc, <- V1k. change (2 ^ prec f) with (Zpower radix2 (prec f)). rewrite IZR_Zpower, KR by (clear; destruct f; discriminate). lra. }
  assert (V2k : (val f a1 + val f a1 = IZR (2 * (2 ^ prec f - k)) * u)%R) by (rewrite V1a, V1k, mult_IZR; ring).
  destruct (@x_add nn f a1 a1 W1a W1a F1a F1a ltac:(rewrite V1a; apply Rabs_le; lra) ltac:(rewrite V2k; apply rnd_grid; lia)) as [F2a V2a]. assert (W2a : word W t2) by (rewrite Xt2; apply fadd_word). rewrite <- Xt2 in F2a, V2a. clear Xt2.
  destruct (@o_sqrt nn f t2 W2a F2a ltac:(rewrite V2a, V1a; lra)) as (Wq & Fq & Eq). rewrite <- Xq in Wq, Fq, Eq. clear Xq.
  destruct (@ah_ok X HF fm nn a1 W1a F1a ltac:(rewrite V1a; lra)) as (Wp & Fp & Ep). rewrite <- Xp1 in Wp, Fp, Ep. clear Xp1. set (t := val f a1) in *. rewrite V2a in Eq. replace (t + t)%R with (2 * t)%R in Eq by ring.
  assert (AS := @asin_sq t ltac:(lra)). cbv zeta in AS. set (s := sqrt (2 * t)) in *. set (h := (t / 2 * hornerR asT (t / 2))%R) in *. destruct AS as (Bs & Bh & AI & AE). replace (1 - t)%R with (val f a) in AI by lra. rewrite AI. set (as2 := (2 * asin (s / 2))%R) in *. clearbody s h as2. clear Vk V1k V2k.
  assert (Bs' : (Rabs s <= 867 / 1000)%R) by (rewrite Rabs_pos_eq; lra). assert (Eq' := opb Eq EU Bs'). clear Eq.
  apply Rabs_le_inv in Eq', Ep, Bh, V4.
  (* q1 p1 *)
  assert (PR : (Rabs (val f q * val f p1 - s * h) <= 256 / 100 * u)%R).
  { replace (val f q * val f p1 - s * h)%R with ((val f q - s) * val f p1 + s * (val f p1 - h))%R by ring. eapply Rle_trans; [apply Rabs_triang|]. rewrite !Rabs_mult.
    assert (A1 : (Rabs (val f q - s) * Rabs (val f p1) <= (869 / 1000 * u) * (45 / 1000))%R) by (apply Rmult_le_compat; try apply Rabs_pos; apply Rabs_le; lra).
    assert (A2 : (Rabs s * Rabs (val f p1 - h) <= 867 / 1000 * (29 / 10 * u))%R) by (apply Rmult_le_compat; try apply Rabs_pos; auto; apply Rabs_le; lra). lra. }
  assert (SH : (Rabs (s * h) <= 365 / 10000)%R). { rewrite Rabs_mult. apply Rle_trans with (867 / 1000 * (42 / 1000))%R; [|lra]. apply Rmult_le_compat; try apply Rabs_pos; auto. apply Rabs_le; lra. }
  assert (PB : (Rabs (val f q * val f p1) <= 4 / 100)%R) by (pose proof (near_abs PR SH); lra).
  destruct (@o_fms q p1 _ Wq Wp Wo Fq Fp Fo PB ltac:(lra)) as (Wm & Fm & Em). rewrite <- Xm in Wm, Fm, Em. clear Xm.
  destruct (@o_sub nn f _ q W4 Wq F4 Fq ltac:(apply Rabs_le; lra)) as (Wb & Fb & Eb). rewrite <- Xb in Wb, Fb, Eb. clear Xb.
  assert (Bb : (Rabs (val f (c_pio4 W) - val f q) <= 788 / 1000)%R) by (apply Rabs_le; lra). assert (Eb' := opb Eb EU Bb). clear Eb. apply Rabs_le_inv in Eb'.
  destruct (@o_add nn f b _ Wb W4 Fb F4 ltac:(apply Rabs_le; lra)) as (Wd & Fd & Ed). rewrite <- Xd in Wd, Fd, Ed. clear Xd.
  assert (Bd : (Rabs (val f b + val f (c_pio4 W)) <= 1575 / 1000)%R) by (apply Rabs_le; lra). assert (Ed' := opb Ed EU Bd). clear Ed. apply Rabs_le_inv in Ed'.
  apply Rabs_le_inv in PR, SH, PB, Em.
  destruct (@o_sub nn f d m Wd Wm Fd Fm ltac:(apply Rabs_le; lra)) as (Wr & Fr & Er). rewrite <- Xr in Wr, Fr, Er. clear Xr. split; auto.
  assert (Bf : (Rabs (val f d - val f m) <= 162 / 100)%R) by (apply Rabs_le; lra). assert (Er' := opb Er EU Bf). clear Er. apply Rabs_le_inv in Er'.
  assert (SU : (s * bpow radix2 (-54) <= 867 / 1000 * (/ 2 * u))%R) by (apply Rmult_le_compat; try lra; apply bpow_ge_0).
  apply Rabs_le_inv in AE. apply Rabs_le. split; lra.
Qed.
(** the branch at most 5/8 *)
Lemma asin_low a : word W a -> isfin f a = true -> (0 <= val f a <= 5 / 8)%R -> forall s, within f (91 / 10 * u * val f a) (asin (val f a)) (Z.lxor (easin1 (X := X) fm nn a s) s).
Proof.
  intros Wa Fa B s. pose proof (eta_small f) as E0. pose proof (pr_small f) as P0. destruct c_58_ok as (W5 & F5 & V5). destruct c_pmin_ok as (Wm & Fm & Vm & Vm2). unfold easin1. cbv zeta. rewrite !(xw_fw HX HF), Z.lxor_assoc, Z.lxor_nilpotent, Z.lxor_0_r.
  rewrite (flt_val Wa Wm Fa Fm), (flt_val W5 Wa F5 Fa). rewrite (Rlt_bool_false (val f (c_five_eights W))) by lra.
  destruct (Rlt_bool_spec (val f a) (val f (c_asin_pmin W))) as [H|H].
  - split; auto. rewrite <- Rabs_Ropp, Ropp_minus_distr. eapply Rle_trans; [apply asin_near; rewrite Rabs_pos_eq; lra|]. rewrite Rabs_pos_eq by lra. set (v := val f a) in *. pose proof u54. assert (v * v <= u)%R by nra.
    assert (v * (v * v * (222 / 1000) + bpow radix2 (-54)) <= v * (9 * u))%R by (apply Rmult_le_compat_l; lra). assert (0 <= v * u)%R by (apply Rmult_le_pos; lra). lra.
  - pose proof (@as_kern X HF fm nn a Wa Fa) as K. rewrite Rabs_pos_eq in K by lra. unfold kern in K. cbv zeta in K. assert (KE : (3 * eta f <= 1 / 10 * u * val f a)%R). { pose proof eta_pmin. pose proof (ub f H). lra. } unfold within. match type of K with _ -> ?A /\ _ => enough (K1 : A /\ (Rabs (val f (fmadd1 (X := X) nn fm a (fmul nn f (fmul nn f a a) (fdiv nn f (polevl1 (X := X) fm nn (fmul nn f a a) (asin_p W)) (polevl1 (X := X) fm nn (fmul nn f a a) (asin_q W)))) a) - asin (val f a)) <= 9 * u * val f a + 3 * eta f)%R) by (destruct K1; split; auto; lra) end. apply K. change as_ma with (5 * 2 ^ 137). pose proof UU_inv as UI. change (2 ^ 140) with (8 * 2 ^ 137) in UI. rewrite mult_IZR in *. lra.
Qed.
Lemma easin_err a s : word W a -> isfin f a = true -> (0 <= val f a <= 1)%R -> within f (16 * u * asin (val f a)) (asin (val f a)) (Z.lxor (easin1 (X := X) fm nn a s) s) /\ (Rabs (val f (Z.lxor (easin1 (X := X) fm nn a s) s) - asin (val f a)) <= 98 / 10 * u)%R.
Proof.
  intros Wa Fa B. pose proof (eta_small f) as E0. pose proof (eta_u f) as EU. pose proof (pr_small f) as P0. assert (AP := @asin_pos (val f a) B). pose proof (ub f AP) as AU. destruct (Rle_lt_dec (val f a) (5 / 8)) as [L|L].
  - destruct (@asin_low a Wa Fa ltac:(lra) s) as [F E]. assert (0 <= u * val f a)%R by (apply Rmult_le_pos; lra). pose proof (ub f L). split; [split; auto; lra|]. lra.
  - pose proof (@asin_high a _ _ _ _ _ _ _ _ Wa Fa ltac:(lra) eq_refl eq_refl eq_refl eq_refl eq_refl eq_refl eq_refl eq_refl) as [F E]. destruct c_58_ok as (W5 & F5 & V5). destruct c_pmin_ok as (Wm & Fm & Vm & Vm2). unfold easin1. cbv zeta. rewrite !(xw_fw HX HF), Z.lxor_assoc, Z.lxor_nilpotent, Z.lxor_0_r.
    rewrite (flt_val Wa Wm Fa Fm), (flt_val W5 Wa F5 Fa), V5. rewrite (Rlt_bool_false (val f a)) by lra. rewrite Rlt_bool_true by lra. split; auto. split; auto.
    eapply Rle_trans; [exact E|]. assert (L' : (5 / 8 <= asin (val f a))%R) by lra. pose proof (ub f L'). lra.
Qed.
Lemma easin_stuff a s : Z.lxor (Z.lxor (easin1 (X := X) fm nn a s) s) s = easin1 (X := X) fm nn a s.
Proof. now rewrite Z.lxor_assoc, Z.lxor_nilpotent, Z.lxor_0_r. Qed.
Lemma sgm_abs b r : Rabs (sgm b * r) = Rabs r.
Proof. rewrite Rabs_mult. replace (Rabs (sgm b)) with 1%R by (destruct b; cbn [sgm]; unfold Rabs; destruct (Rcase_abs _); lra). ring. Qed.
Lemma adom_id he a : word W a -> isfin f a = true -> (val f a <= 1)%R -> adom1 (X := X) he nn a = a.
Proof. intros Wa Fa B. destruct (@fone_ok f) as (W1 & F1 & V1). unfold adom1. rewrite (xw_fw HX HF), (flt_val W1 Wa F1 Fa), V1, Rlt_bool_false by auto. now destruct he. Qed.
(** asin of |x|, with the sign of x *)
Lemma easin_sgn x a : word W x -> isfin f x = true -> a = fmag W x -> (Rabs (val f x) <= 1)%R -> let y := easin1 (X := X) fm nn a (sx1 (X := X) x) in
  word W y /\ within f (16 * u * Rabs (asin (val f x))) (asin (val f x)) y /\ (Rabs (val f y - asin (val f x)) <= 98 / 10 * u)%R /\ ((Rabs (val f x) <= 5 / 8)%R -> (Rabs (val f y - asin (val f x)) <= 91 / 10 * u * Rabs (val f x))%R).
Proof.
  intros Hx Fx -> B y. destruct (mag_val HF Hx Fx) as (Wa & Fa & Va). pose proof (sx_w HF x) as Ws. assert (Wy : word W y) by (apply easin_w; auto). split; auto.
  set (a := fmag W x) in *. assert (Ba : (0 <= val f a <= 1)%R) by (rewrite Va; split; [apply Rabs_pos|auto]). destruct (@easin_err a (sx1 (X := X) x) Wa Fa Ba) as [[F1 E1] E2].
  assert (E3 := fun B5 => @asin_low a Wa Fa B5 (sx1 (X := X) x)).
  assert (Wz : word W (Z.lxor y (sx1 (X := X) x))) by (apply word_lxor; auto; clear; destruct f; discriminate).
  destruct (@lxor_sx X HX HF x _ Wz F1) as [F' V']. unfold y in F', V'. rewrite easin_stuff in F', V'. fold y in F', V', E1, E2, E3. clearbody y. unfold within in *. rewrite V'.
  assert (S : asin (val f x) = (sgm (fsign W x) * asin (val f a))%R). { rewrite Va, (val_sgn Hx Fx) at 1. destruct (fsign W x); cbn [sgm]; [|now rewrite !Rmult_1_l]. replace (-1 * Rabs (val f x))%R with (- Rabs (val f x))%R by ring. rewrite asin_opp. ring. }
  rewrite S, <- Rmult_minus_distr_l, !sgm_abs. pose proof (@asin_pos _ Ba) as AP. rewrite (Rabs_pos_eq (asin _)) by lra. split; [split; auto|]. split; auto.
  intros B5. rewrite <- Va. apply E3. rewrite Va. split; [apply Rabs_pos|auto].
Qed.
Lemma asin_err he x : word W x -> isfin f x = true -> (Rabs (val f x) <= 1)%R -> within f (16 * u * Rabs (asin (val f x))) (asin (val f x)) (asin1 (X := X) fm he nn x).
Proof.
  intros Hx Fx B. unfold asin1. rewrite (ab_mag HX HF Hx). destruct (mag_val HF Hx Fx) as (Wa & Fa & Va). rewrite adom_id by (auto; rewrite Va; auto). now apply easin_sgn.
Qed.
Lemma c_half_ok : word W (c_half W) /\ isfin f (c_half W) = true /\ val f (c_half W) = (1 / 2)%R.
Proof.
  clear. destruct f.
  - split; [unfold word; cbn; lia|]. split; [reflexivity|]. rewrite (@val_cst F32 _ 8388608 (-24)) by (try reflexivity; unfold word; cbn; lia). cbn. lra.
  - split; [unfold word; cbn; lia|]. split; [reflexivity|]. rewrite (@val_cst F64 _ 4503599627370496 (-53)) by (try reflexivity; unfold word; cbn; lia). cbn. lra.
Qed.
Lemma c_mhalf_ok : word W (c_mhalf W) /\ isfin f (c_mhalf W) = true /\ val f (c_mhalf W) = (- (1 / 2))%R.
Proof.
  clear. destruct f.
  - split; [unfold word; cbn; lia|]. split; [reflexivity|]. rewrite (@val_cst F32 _ (-8388608) (-24)) by (try reflexivity; unfold word; cbn; lia). cbn. lra.
  - split; [unfold word; cbn; lia|]. split; [reflexivity|]. rewrite (@val_cst F64 _ (-4503599627370496) (-53)) by (try reflexivity; unfold word; cbn; lia). cbn. lra.
Qed.
Lemma c_two_ok : word W (c_two W) /\ isfin f (c_two W) = true /\ val f (c_two W) = 2%R.
Proof.
  clear. destruct f.
  - split; [unfold word; cbn; lia|]. split; [reflexivity|]. rewrite (@val_cst F32 _ 8388608 (-22)) by (try reflexivity; unfold word; cbn; lia). cbn. lra.
  - split; [unfold word; cbn; lia|]. split; [reflexivity|]. rewrite (@val_cst F64 _ 4503599627370496 (-51)) by (try reflexivity; unfold word; cbn; lia). cbn. lra.
Qed.
Lemma cr_exact s y : correct_round f s y -> rnd f s = s -> (Rabs s <= 16)%R -> isfin f y = true /\ val f y = s.
Proof. intros C E B. destruct (@cr_fin _ _ _ C B) as [F _]. split; auto. unfold correct_round in C. rewrite Rlt_bool_true in C; [destruct C; congruence|]. rewrite E. eapply Rle_lt_trans; [exact B|]. apply Rlt_le_trans with 64%R; [lra|]. change 64%R with (bpow radix2 6). apply bpow_le. clear. destruct f; discriminate. Qed.
Lemma rnd_grid1 k e : - prec f - 4 <= e <= 0 -> - 2 ^ prec f <= k <= 2 ^ prec f -> rnd f (IZR k * bpow radix2 e) = (IZR k * bpow radix2 e)%R.
Proof.
  intros He Hk. apply rnd_id. assert (G : forall k, 0 <= k <= 2 ^ prec f -> generic_format radix2 (SpecFloat.fexp (prec f) (emax f)) (IZR k * bpow radix2 e)).
  { assert (PE : prec f = 24 /\ emax f = 128 \/ prec f = 53 /\ emax f = 1024) by (clear; destruct f; [left|right]; split; reflexivity). clear -He PE. intros k Hk. destruct (Z.eq_dec k (2 ^ prec f)) as [-> | N].
    - change 2 with (radix_val radix2). rewrite IZR_Zpower, <- bpow_plus by (destruct f; discriminate). apply generic_format_bpow. unfold SpecFloat.fexp, SpecFloat.emin. lia.
    - apply generic_format_FLT. exists (Float radix2 k e); [reflexivity| |cbn [Fexp]; unfold SpecFloat.emin; lia]. cbn [Fnum]. change (Zpower radix2 (prec f)) with (2 ^ prec f). lia. }
  destruct (Z.leb_spec 0 k) as [L|L]; [apply G; lia|]. replace (IZR k * bpow radix2 e)%R with (- (IZR (- k) * bpow radix2 e))%R by (rewrite opp_IZR; ring). apply generic_format_opp, G. lia.
Qed.
(** (1 - a) / 2 is exact *)
Lemma half_exact a : word W a -> isfin f a = true -> (1 / 2 <= val f a <= 1)%R -> let h := fmadd1 (X := X) nn fm a (c_mhalf W) (c_half W) in
  word W h /\ isfin f h = true /\ val f h = ((1 - val f a) / 2)%R /\ (val f a < 1 -> bpow radix2 (- prec f - 1) <= val f h)%R.
Proof.
  intros Wa Fa B h. destruct c_half_ok as (Wh & Fh & Vh). destruct c_mhalf_ok as (Wm & Fm & Vm). destruct (@val_grid f a Wa Fa ltac:(lra)) as (k & Hk & Vk). pose proof (pr_small f) as P0.
  assert (KR : (bpow radix2 (prec f) * u = 1)%R) by (rewrite <- bpow_plus; replace (prec f + - prec f) with 0 by lia; reflexivity).
  assert (KZ : IZR (2 ^ prec f) = bpow radix2 (prec f)) by (change 2 with (radix_val radix2); rewrite IZR_Zpower by (clear; destruct f; discriminate); reflexivity).
  assert (UH : bpow radix2 (- prec f - 1) = (u * / 2)%R) by (unfold Z.sub; rewrite bpow_plus; reflexivity).
  assert (PP : 0 < prec f) by (clear; destruct f; reflexivity).
  assert (VS : ((1 - val f a) / 2 = IZR (2 ^ prec f - k) * bpow radix2 (- prec f - 1))%R). { rewrite UH, minus_IZR, KZ, Vk, Rmult_minus_distr_r, <- Rmult_assoc, KR. field. }
  assert (RS : rnd f ((1 - val f a) / 2) = ((1 - val f a) / 2)%R) by (rewrite VS; apply rnd_grid1; lia).
  assert (K : isfin f h = true /\ val f h = ((1 - val f a) / 2)%R).
  { unfold h, fmadd1. clear h. destruct fm.
    - assert (C := fma_ok nn Wa Wm Wh). specialize (C (conj Fa (conj Fm Fh))). rewrite Vm, Vh in C. replace (val f a * - (1 / 2) + 1 / 2)%R with ((1 - val f a) / 2)%R in C by lra. apply (@cr_exact _ _ C RS). apply Rabs_le; lra.
    - destruct (mul_ok nn Wa Wm) as (_ & C & _). destruct (C Fa Fm) as [C1 _]. rewrite Vm in C1. assert (VP : (val f a * - (1 / 2) = IZR (- k) * bpow radix2 (- prec f - 1))%R) by (rewrite UH, opp_IZR, Vk; field).
      destruct (@cr_exact _ _ C1) as [Fp Vp]; [rewrite VP; apply rnd_grid1; lia|apply Rabs_le; lra|]. set (p := fmul nn f a (c_mhalf W)) in *. assert (Wp : word W p) by apply fmul_word. clearbody p. clear C C1.
      destruct (add_ok nn Wp Wh) as (_ & C & _). destruct (C Fp Fh) as [C1 _]. rewrite Vp, Vh in C1. replace (val f a * - (1 / 2) + 1 / 2)%R with ((1 - val f a) / 2)%R in C1 by lra. apply (@cr_exact _ _ C1 RS). apply Rabs_le; lra. }
  destruct K as [F V]. split; [apply fma_word|]. split; auto. split; auto. intros L. rewrite V, VS. assert (K1 : 1 <= 2 ^ prec f - k). { assert (L2 : (IZR k * u < IZR (2 ^ prec f) * u)%R) by (rewrite KZ, KR, <- Vk; auto). apply Rmult_lt_reg_r in L2; [|lra]. apply lt_IZR in L2. lia. }
  apply IZR_le in K1. rewrite UH. assert (0 < u * / 2)%R by lra. assert (1 * (u * / 2) <= IZR (2 ^ prec f - k) * (u * / 2))%R by (apply Rmult_le_compat_r; lra). lra.
Qed.
(** asin on [0, 1/2] is Lipschitz *)
Lemma asin_lip a b : (0 <= a <= 51 / 100)%R -> (0 <= b <= 51 / 100)%R -> (Rabs (asin a - asin b) <= 12 / 10 * Rabs (a - b))%R.
Proof.
  assert (G : forall a b, (0 <= a)%R -> (a < b)%R -> (b <= 51 / 100)%R -> (0 <= asin b - asin a <= 12 / 10 * (b - a))%R).
  { clear. intros a b A H B. destruct (MVT_cor2 asin (fun x => 1 / sqrt (1 - x²))%R a b H) as (c & E & Cb).
    { intros c Hc. assert (Hc' : (-1 < c < 1)%R) by lra. pose proof (derive_pt_asin c Hc') as D. unfold derive_pt in D. destruct (derivable_pt_asin c Hc') as [l Hl]. cbn in D. subst l. exact Hl. }
    rewrite E. assert (C2 : (c² <= 261 / 1000)%R) by (unfold Rsqr; nra). assert (S1 : (sqrt (10 * 10 / (12 * 12)) <= sqrt (1 - c²))%R) by (apply sqrt_le_1_alt; lra).
    assert (S2 : (sqrt (10 * 10 / (12 * 12)) = 10 / 12)%R) by (replace (10 * 10 / (12 * 12))%R with ((10 / 12)²)%R by (unfold Rsqr; field); apply sqrt_Rsqr; lra). rewrite S2 in S1.
    assert (I1 : (0 < 1 / sqrt (1 - c²) <= 12 / 10)%R). { unfold Rdiv at 1 2. rewrite !Rmult_1_l. split; [apply Rinv_0_lt_compat; lra|]. replace (12 / 10)%R with (/ (10 / 12))%R by field. apply Rinv_le_contravar; lra. } split; [apply Rmult_le_pos; lra|apply Rmult_le_compat_r; lra]. }
  intros A B. destruct (Rtotal_order a b) as [H | [-> | H]].
  - specialize (G a b (proj1 A) H (proj2 B)). rewrite (Rabs_left1 (a - b)), (Rabs_left1 (asin a - asin b)); lra.
  - rewrite !Rminus_diag_eq, Rabs_R0 by reflexivity. lra.
  - specialize (G b a (proj1 B) H (proj2 A)). rewrite !Rabs_pos_eq; lra.
Qed.
(** x > 1/2 *)
Lemma acos_high a h r e y : word W a -> isfin f a = true -> (1 / 2 <= val f a < 1)%R -> h = fmadd1 (X := X) nn fm a (c_mhalf W) (c_half W) -> r = fsqrt nn f h -> e = easin1 (X := X) fm nn r 0 -> y = fmul nn f (c_two W) e ->
  within f (16 * u * acos (val f a)) (acos (val f a)) y.
Proof.
  intros Wa Fa B Xh Xr Xe Xy. pose proof (pr_small f) as P0. pose proof (eta_small f) as E0. destruct c_two_ok as (W2 & F2 & V2).
  destruct (@half_exact a Wa Fa ltac:(lra)) as (Wh & Fh & Vh & Lh). rewrite <- Xh in Wh, Fh, Vh, Lh. clear Xh. specialize (Lh (proj2 B)).
  destruct (@o_sqrt nn f h Wh Fh ltac:(rewrite Vh; lra)) as (Wr & Fr & Er). rewrite <- Xr in Wr, Fr, Er. clear Xr. set (b := sqrt (val f h)) in *.
  assert (B2 : (b * b = (1 - val f a) / 2)%R) by (unfold b; rewrite sqrt_sqrt; [auto|rewrite Vh; lra]). assert (B0 : (0 <= b)%R) by apply sqrt_pos.
  assert (BL : (bpow radix2 (- prec f) <= b)%R). { apply Rsqr_incr_0; try lra. unfold Rsqr. rewrite B2, <- Vh. eapply Rle_trans; [|exact Lh]. unfold Z.sub. rewrite bpow_plus. change (bpow radix2 (- (1))) with (/ 2)%R. apply Rmult_le_compat_l; lra. }
  assert (BU : (b <= 1 / 2)%R) by (clear -B0 B2 B; nra).
  assert (AC : acos (val f a) = (2 * asin b)%R). { rewrite <- acos_half by lra. f_equal. lra. }
  clearbody b. rewrite (Rabs_pos_eq b) in Er by lra.
  assert (ET : (eta f <= / 1024 * (u * b))%R). { apply Rle_trans with (/ 1024 * (u * u))%R; [|apply Rmult_le_compat_l; [lra|apply Rmult_le_compat_l; lra]]. unfold eta. change (/ 1024)%R with (bpow radix2 (-10)). rewrite <- !bpow_plus. apply bpow_le. clear. destruct f; discriminate. }
  assert (UB : (0 < u * b)%R) by (apply Rmult_lt_0_compat; lra). assert (UB2 : (u * b <= / 1024 * b)%R) by (apply Rmult_le_compat_r; lra).
  assert (Er' : (Rabs (val f r - b) <= 1001 / 1000 * (u * b))%R) by lra. apply Rabs_le_inv in Er'.
  assert (Br : (0 <= val f r <= 51 / 100)%R) by lra. pose proof (@asin_lip (val f r) b Br ltac:(lra)) as AL. assert (Er2 : (Rabs (val f r - b) <= 1001 / 1000 * (u * b))%R) by (apply Rabs_le; lra).
  assert (EA : within f (91 / 10 * u * val f r) (asin (val f r)) e). { pose proof (@asin_low r Wr Fr ltac:(lra) 0) as A. rewrite Z.lxor_0_r, <- Xe in A. exact A. } destruct EA as [Fe Ee].
  assert (We : word W e) by (rewrite Xe; apply easin_w; auto; apply zero_ok). clear Xe.
  assert (UR : (u * val f r <= 1001 / 1000 * (u * b))%R). { apply Rle_trans with (u * (1001 / 1000 * b))%R; [apply Rmult_le_compat_l; lra|lra]. }
  assert (ED : (Rabs (val f e - asin b) <= 104 / 10 * (u * b))%R) by (pose proof (tri Ee AL); lra).
  pose proof (@asin_pos b ltac:(lra)) as AP. assert (AN := @asin_near b ltac:(rewrite Rabs_pos_eq; lra)). rewrite (Rabs_pos_eq b) in AN by lra. 
  assert (AQ : (asin b <= 12 / 10 * b)%R). { apply Rabs_le_inv in AN. assert (b * (b * b * (222 / 1000) + bpow radix2 (-54)) <= b * (2 / 10))%R; [|lra]. apply Rmult_le_compat_l; auto. assert (b * b <= 1 / 4)%R by (clear -B0 BU; nra). assert (bpow radix2 (-54) <= / 1024)%R by (change (/ 1024)%R with (bpow radix2 (-10)); apply bpow_le; discriminate). lra. }
  apply Rabs_le_inv in ED.
  destruct (mul_ok nn W2 We) as (_ & C & _). destruct (C F2 Fe) as [C1 _]. rewrite V2, <- Xy in C1. clear C Xy.
  assert (EG : (u * u <= val f e)%R). { assert (u * b <= / 1024 * b)%R by lra. assert (u * u <= / 1024 * u)%R by (apply Rmult_le_compat_r; lra). lra. }
  destruct (@cr_exact _ _ C1) as [Fy Vy].
  - apply rnd_id. replace (2 * val f e)%R with (val f e * bpow radix2 1)%R by (cbn; ring). apply (@Mult_error.mult_bpow_exact_FLT radix2 (SpecFloat.emin (prec f) (emax f)) (prec f)); [apply fmt_val|]. 
    assert (EM : (- (2 * prec f) < Raux.mag_val radix2 (val f e) (mag radix2 (val f e)))). { apply mag_gt_bpow. rewrite Rabs_pos_eq by (assert (0 <= u * u)%R by (apply Rmult_le_pos; lra); lra). eapply Rle_trans; [|exact EG]. rewrite <- bpow_plus. apply bpow_le. lia. }
    revert EM. clear. unfold SpecFloat.emin. assert (PE : prec f = 24 /\ emax f = 128 \/ prec f = 53 /\ emax f = 1024) by (clear; destruct f; [left|right]; split; reflexivity). lia.
  - apply Rabs_le; lra.
  - split; auto. rewrite Vy, AC. assert (u * b <= u * asin b)%R by (apply Rmult_le_compat_l; lra). apply Rabs_le; lra.
Qed.
(** x <= 1/2 *)
Lemma acos_low x a e b d y : word W x -> isfin f x = true -> (-1 <= val f x <= 1 / 2)%R -> a = fmag W x -> e = easin1 (X := X) fm nn a (sx1 (X := X) x) -> b = fsub nn f (c_pio4 W) e -> d = fadd nn f b (c_asin_off W) -> y = fadd nn f d (c_pio4 W) ->
  within f (16 * u * acos (val f x)) (acos (val f x)) y.
Proof.
  intros Hx Fx B Xa Xe Xb Xd Xy. pose proof (pr_small f) as P0. pose proof (eta_small f) as E0. pose proof (eta_u f) as EU. destruct (c_pio4_ok f) as (W4 & F4 & V4). destruct c_off_ok as (Wo & Fo & Vo). destruct pi4_bounds as [PL PH].
  destruct (@easin_sgn x a Hx Fx Xa ltac:(apply Rabs_le; lra)) as (We & [Fe _] & Ee & El). rewrite <- Xe in We, Fe, Ee, El. clear Xe Xa. rewrite acos_asin by lra. pose proof (asin_bound (val f x)) as AB.
  set (v := val f x) in *. set (s := asin v) in *.
  assert (K : (v <= -5 / 8 /\ s <= -5 / 8 /\ Rabs (val f e - s) <= 98 / 10 * u)%R \/ (Rabs s <= 69 / 100 /\ s <= 53 / 100 /\ Rabs (val f e - s) <= 57 / 10 * u)%R).
  { destruct (Rle_lt_dec v (-5 / 8)) as [L|L].
    - left. split; auto. split; auto. unfold s. replace v with (- - v)%R by ring. rewrite asin_opp. pose proof (@asin_pos (- v) ltac:(lra)). lra.
    - right. assert (AV : (Rabs v <= 5 / 8)%R) by (apply Rabs_le; lra). specialize (El AV). pose proof (ub f AV) as U. assert (N := @asin_near v AV). fold s in N. pose proof u54 as U5.
      assert (Q : (Rabs (s - v) <= Rabs v * (1 / 10))%R). { eapply Rle_trans; [exact N|]. apply Rmult_le_compat_l; [apply Rabs_pos|]. assert (v * v <= 25 / 64)%R by (rewrite sq_abs; pose proof (Rabs_pos v); nra). lra. }
      split; [pose proof (near_abs Q AV); lra|]. split; [|lra]. destruct (Rle_lt_dec v 0) as [L0|L0].
      + rewrite (Rabs_left1 v) in Q by auto. apply Rabs_le_inv in Q. lra.
      + assert (Vq : (v * v <= 1 / 4)%R) by nra. rewrite (Rabs_pos_eq v) in N by lra. assert (v * (v * v * (222 / 1000) + bpow radix2 (-54)) <= 1 / 2 * (1 / 4 * (222 / 1000) + / 2 * u))%R by (apply Rmult_le_compat; try lra; pose proof (bpow_ge_0 radix2 (-54)); nra). apply Rabs_le_inv in N. lra. }
  assert (BS : (Rabs (val f e) <= 16 / 10)%R). { assert (Rabs s <= 1571 / 1000)%R by (apply Rabs_le; lra). pose proof (near_abs Ee H). lra. } apply Rabs_le_inv in BS, V4.
  destruct (@o_sub nn f _ e W4 We F4 Fe ltac:(apply Rabs_le; lra)) as (Wb & Fb & Eb). rewrite <- Xb in Wb, Fb, Eb. clear Xb.
  assert (Bb0 : (Rabs (val f (c_pio4 W) - val f e) <= 24 / 10)%R) by (apply Rabs_le; lra). pose proof (opb Eb EU Bb0) as Eb0. apply Rabs_le_inv in Eb0.
  destruct (@o_add nn f b _ Wb Wo Fb Fo ltac:(apply Rabs_le; lra)) as (Wd & Fd & Ed). rewrite <- Xd in Wd, Fd, Ed. clear Xd.
  assert (Bd0 : (Rabs (val f b + val f (c_asin_off W)) <= 2403 / 1000)%R) by (apply Rabs_le; lra). pose proof (opb Ed EU Bd0) as Ed0. apply Rabs_le_inv in Ed0.
  destruct (@o_add nn f d _ Wd W4 Fd F4 ltac:(apply Rabs_le; lra)) as (Wy & Fy & Ey). rewrite <- Xy in Wy, Fy, Ey. clear Xy. split; auto. clearbody s v. clear El Ee.
  destruct K as [(K1 & K2 & K3) | (K1 & K2 & K3)]; apply Rabs_le_inv in K3.
  - assert (By : (Rabs (val f d + val f (c_pio4 W)) <= 32 / 10)%R) by (apply Rabs_le; lra). pose proof (opb Ey EU By) as Ey0. apply Rabs_le_inv in Ey0. assert (M : (u * (21 / 10) <= u * (PI / 2 - s))%R) by (apply Rmult_le_compat_l; lra). apply Rabs_le; lra.
  - apply Rabs_le_inv in K1. assert (Bb : (Rabs (val f (c_pio4 W) - val f e) <= 149 / 100)%R) by (apply Rabs_le; lra). pose proof (opb Eb EU Bb) as Eb1. apply Rabs_le_inv in Eb1.
    assert (Bd : (Rabs (val f b + val f (c_asin_off W)) <= 150 / 100)%R) by (apply Rabs_le; lra). pose proof (opb Ed EU Bd) as Ed1. apply Rabs_le_inv in Ed1.
    assert (By : (Rabs (val f d + val f (c_pio4 W)) <= 230 / 100)%R) by (apply Rabs_le; lra). pose proof (opb Ey EU By) as Ey1. apply Rabs_le_inv in Ey1. assert (M : (u * (104 / 100) <= u * (PI / 2 - s))%R) by (apply Rmult_le_compat_l; lra). apply Rabs_le; lra.
Qed.
Lemma acos_err he x : word W x -> isfin f x = true -> (Rabs (val f x) <= 1)%R -> within f (16 * u * acos (val f x)) (acos (val f x)) (acos1 (X := X) fm he nn x).
Proof.
  intros Hx Fx B. destruct c_half_ok as (Wh & Fh & Vh). destruct (mag_val HF Hx Fx) as (Wa & Fa & Va). unfold acos1. cbv zeta. rewrite (ab_mag HX HF Hx), adom_id by (auto; rewrite Va; auto). rewrite (xw_fw HX HF), (flt_val Wh Hx Fh Fx), Vh. apply Rabs_le_inv in B.
  destruct (Rlt_bool_spec (1 / 2) (val f x)) as [L|L].
  - assert (Vx : val f (fmag W x) = val f x) by (rewrite Va, Rabs_pos_eq; lra). destruct (Rlt_le_dec (val f x) 1) as [L1|L1].
    + rewrite <- Vx. eapply acos_high; [exact Wa|exact Fa|rewrite Vx; lra|reflexivity|reflexivity|reflexivity|reflexivity].
    + assert (E1 : val f x = 1%R) by lra. destruct (@fone_ok f) as (W1 & F1 & V1). destruct (@asin_1 X fm he nn HX HF) as (_ & A1 & _). cbv zeta in A1.
      assert (EX : x = fone W). { apply (@bits_inj f); auto; [congruence|]. replace (fsign W (fone W)) with false by (clear; destruct f; reflexivity). pose proof (val_sgn Hx Fx) as VS. destruct (fsign W x); auto. exfalso. cbn [sgm] in VS. pose proof (Rabs_pos (val f x)). lra. }
      assert (G : acos1 (X := X) fm he nn x = 0) by (rewrite EX; exact A1). unfold acos1 in G. cbv zeta in G. rewrite (ab_mag HX HF Hx), adom_id in G by (auto; rewrite Va, E1, Rabs_R1; lra). rewrite (xw_fw HX HF), (flt_val Wh Hx Fh Fx), Vh, Rlt_bool_true in G by auto. rewrite G, E1, acos_1.
      split; [clear; destruct f; reflexivity|]. rewrite fmt_0, Rminus_0_r, Rabs_R0. lra.
  - eapply acos_low; [exact Hx|exact Fx|lra|reflexivity|reflexivity|reflexivity|reflexivity|reflexivity].
Qed.
End A.
Close Scope Z_scope.
