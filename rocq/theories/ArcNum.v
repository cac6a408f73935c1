(** The numbers: atan and asin kernels, certified by evaluation. *)
From Coq Require Import ZifyBool ZifyNat Reals Ratan Lra.
From Flocq Require Import Core IEEE754.BinarySingleNaN IEEE754.Binary.
From Verif Require Import Base Cxx Spec X86Vec X86 X86Lemmas X86Proofs Fp FpLemmas FpOps FMath FMathProofs FLane FFields FManip FManipLanes PropManip Round RoundProofs RoundSem FArith PropArith FCvt PropHypot PropIeee PropLog FErr IvPoly TrigTab Trig TrigProofs SinPoly SinEval ArcSer RatPoly ArcKern.
Set Implicit Arguments.
Open Scope Z_scope.

(** coefficients as intervals *)
Definition inv_i (s : bool) (j : Z) : Z * Z := let q := S140 / j in if s then (- (q + 1), - q) else (q, q + 1).
Lemma inv_i_ok (s : bool) j : 0 < j -> iv (inv_i s j) ((if s then -1 else 1) / IZR j).
Proof. intros H. pose proof (inv_iv j H) as [A B]. unfold inv_i, iv in *. cbn [fst snd] in *. destruct s; cbn [fst snd]; [|auto]. rewrite !opp_IZR. replace (-1 / IZR j)%R with (- (1 / IZR j))%R by (unfold Rdiv; ring). lra. Qed.
Fixpoint atI (s : bool) (j : Z) (n : nat) : list (Z * Z) := match n with O => [] | S m => inv_i s j :: atI (negb s) (j + 2) m end.
Lemma atI_ok n : forall (s : bool) j, (0 < j)%nat -> Forall2 iv (atI s (Z.of_nat j) n) (atc (if s then -1 else 1)%R j n).
Proof.
  induction n as [|n IH]; intros s j Hj; cbn [atI atc]; constructor.
  - rewrite INR_IZR_INZ. apply inv_i_ok. lia.
  - replace (Z.of_nat j + 2) with (Z.of_nat (S (S j))) by lia. replace (- (if s then -1 else 1))%R with (if negb s then -1 else 1)%R by (destruct s; cbn; ring). apply IH. lia.
Qed.
Definition atT : list R := atc (-1) 3 47.
Definition atTI : list (Z * Z) := atI true 3 47.
Lemma atTI_ok : Forall2 iv atTI atT. Proof. exact (@atI_ok 47 true 3%nat ltac:(lia)). Qed.
(** b / (4^n j) *)
Fixpoint asI (j : Z) (l : list Z) : list (Z * Z) := match l with [] => [] | b :: l' => let q := (b * 2 ^ 60) / j in (q, q + 1) :: asI (j + 2) l' end.
Lemma asI_ok l : forall j, (0 < j)%nat -> Forall2 iv (asI (Z.of_nat j) l) (asc j l).
Proof.
  induction l as [|b l IH]; intros j Hj; cbn [asI asc]; constructor.
  - rewrite INR_IZR_INZ. set (d := Z.of_nat j) in *. assert (D0 : 0 < d) by lia. pose proof (IZR_lt _ _ D0) as Pd. pose proof UU_pos as UP.
    assert (E : (IZR b / IZR p4 / IZR d = IZR (b * 2 ^ 60) / IZR d * UU)%R).
    { assert (U : (/ IZR p4 = IZR (2 ^ 60) * UU)%R). { unfold UU. change (IZR (2 ^ 60)) with (bpow radix2 60). rewrite <- bpow_plus. change (60 + -140) with (-(80)). rewrite bpow_opp. f_equal. }
      unfold Rdiv. rewrite U, mult_IZR. ring. }
    rewrite E. unfold iv. cbn [fst snd]. pose proof (Z_div_mod_eq_full (b * 2 ^ 60) d) as M. pose proof (Z.mod_pos_bound (b * 2 ^ 60) d D0) as Bd. set (q := b * 2 ^ 60 / d) in *. set (a := b * 2 ^ 60) in *. clearbody q a.
    split; (apply Rmult_le_compat_r; [lra|]); (apply Rmult_le_reg_r with (IZR d); auto); unfold Rdiv; rewrite (Rmult_assoc (IZR a)), Rinv_l, Rmult_1_r by lra; rewrite <- mult_IZR; apply IZR_le; lia.
  - replace (Z.of_nat j + 2) with (Z.of_nat (S (S j))) by lia. apply IH. lia.
Qed.
Definition asT : list R := tl (asc 1 (bl nb)).
Definition asTI : list (Z * Z) := asI 3 (tl (bl nb)).
Lemma asTI_ok : Forall2 iv asTI asT.
Proof. unfold asTI, asT. assert (E : bl nb = hd 0 (bl nb) :: tl (bl nb)) by reflexivity. assert (E2 : tl (asc 1 (bl nb)) = asc 3 (tl (bl nb))) by (rewrite E at 1; reflexivity). rewrite E2. exact (asI_ok _ (j := 3%nat) ltac:(lia)). Qed.
(** atan: |b| <= 0.661 *)
Definition at_ma : Z := 2 ^ 140 * 661 / 1000.
Definition at_B (f : fmt) : Z := match f with F32 => 21 * 2 ^ 116 | F64 => 160 * 2 ^ 87 end.
Definition at_l : Z := 193 * 2 ^ 140.
Definition at_K (f : fmt) : Z * Z * bool := kernB f (atan_p (fw f)) (atan_q (fw f)) atTI at_ma 28 6 at_l (2 ^ 126) (2 ^ 139).
(** asin: |b| <= 0.625 *)
Definition as_ma : Z := 5 * 2 ^ 137.
Definition as_B (f : fmt) : Z := match f with F32 => 2 ^ 116 | F64 => 15 * 2 ^ 87 end.
Definition as_l : Z := 25 * 2 ^ 139.
Definition as_K (f : fmt) : Z * Z * bool := kernB f (asin_p (fw f)) (asin_q (fw f)) asTI as_ma 25 6 as_l (2 ^ 120) (57 * 2 ^ 132).
Lemma at_rat f : ratchk f (atan_p (fw f)) (atan_q (fw f)) atTI (Z.to_nat 28) 6 (at_B f) (349 * 2 ^ 140) at_l (2 ^ 126) = true. Proof. destruct f; vm_compute; reflexivity. Qed.
Lemma as_rat f : ratchk f (asin_p (fw f)) (asin_q (fw f)) asTI (Z.to_nat 25) 6 (as_B f) (- 31 * 2 ^ 140) as_l (2 ^ 120) = true. Proof. destruct f; vm_compute; reflexivity. Qed.
(** the sum of the error terms, t being the remainder of the Taylor polynomial *)
Definition ksum (f : fmt) (kk : Z * Z * bool) (B l t : Z) : Z := let '(e, m, _) := kk in e + rr f (2 ^ 140 + 3 * m) + (B * 2 ^ 140 / l + 1) + t.
Lemma at_num f : snd (at_K f) = true /\ ksum f (at_K f) (at_B f) at_l (2 ^ 83) <= 7 * 2 ^ (140 - prec f). Proof. destruct f; vm_compute; split; congruence. Qed.
Lemma as_num f : snd (as_K f) = true /\ ksum f (as_K f) (as_B f) as_l (2 ^ 86) <= 9 * 2 ^ (140 - prec f). Proof. destruct f; vm_compute; split; congruence. Qed.
Lemma ksum_ok f e m o B l t n : 0 < l -> ksum f (e, m, o) B l t <= n * 2 ^ (140 - prec f) -> (IZR (e + rr f (2 ^ 140 + 3 * m)) * UU + IZR B / IZR l + IZR t * UU <= IZR n * bpow radix2 (- prec f))%R.
Proof.
  intros Hl H. unfold ksum in H. apply IZR_le in H. rewrite !plus_IZR, mult_IZR in H. pose proof UU_pos as UP. assert (V := @div_up (B * 2 ^ 140) l Hl). rewrite plus_IZR in V.
  assert (P : (IZR (2 ^ (140 - prec f)) * UU = bpow radix2 (- prec f))%R). { change 2 with (radix_val radix2). rewrite IZR_Zpower by (destruct f; discriminate). unfold UU. rewrite <- bpow_plus. f_equal. lia. }
  assert (Q : (IZR B / IZR l = IZR (B * 2 ^ 140) / IZR l * UU)%R). { rewrite mult_IZR. replace (IZR B * IZR (2 ^ 140) / IZR l * UU)%R with (IZR B / IZR l * (IZR (2 ^ 140) * UU))%R by (unfold Rdiv; ring). rewrite UU_inv. ring. }
  rewrite Q, <- P. set (d := (IZR (B * 2 ^ 140) / IZR l)%R) in *. rewrite plus_IZR. apply Rmult_le_compat_r with (r := UU) in V; [|lra]. apply Rmult_le_compat_r with (r := UU) in H; [|lra]. lra.
Qed.
Lemma pow_rat a b n z k : 0 < b -> (0 <= z <= IZR a / IZR b)%R -> a ^ Z.of_nat n * 2 ^ Z.of_nat k <= b ^ Z.of_nat n -> (z ^ n <= / 2 ^ k)%R.
Proof.
  intros Hb Hz H. apply IZR_lt in Hb as Pb. apply Rle_trans with ((IZR a / IZR b) ^ n)%R; [apply pow_incr; auto|]. apply IZR_le in H. rewrite mult_IZR, <- !pow_IZR in H. unfold Rdiv. rewrite Rpow_mult_distr, pow_inv.
  assert (Pn : (0 < IZR b ^ n)%R) by (apply pow_lt; auto). assert (P2 : (0 < 2 ^ k)%R) by (apply pow_lt; lra). change (IZR 2) with 2%R in H.
  apply Rmult_le_reg_r with (IZR b ^ n)%R; auto. rewrite Rmult_assoc, Rinv_l, Rmult_1_r by lra. apply Rmult_le_reg_l with (2 ^ k)%R; auto. rewrite <- Rmult_assoc, Rinv_r, Rmult_1_l by lra. lra.
Qed.
Lemma sq_abs b : (b * b = Rabs b * Rabs b)%R. Proof. rewrite <- Rabs_mult. symmetry. apply Rabs_pos_eq. nra. Qed.
Lemma atan_poly b : (Rabs b <= IZR at_ma * UU)%R -> (Rabs (atan b - (b + b * (b * b * hornerR atT (b * b)))) <= Rabs b * (IZR (2 ^ 83) * UU))%R.
Proof.
  intros Hb. pose proof (Rabs_pos b) as B0. pose proof UU_pos as UP. pose proof (atan_taylor 48 (Rabs b) B0) as A. rewrite <- sq_abs in A.
  assert (E : hornerR (atc 1 1 48) (b * b) = (1 + b * b * hornerR atT (b * b))%R).
  { change (atc 1 1 48) with (1 / INR 1 :: atc (Ropp 1) 3 47)%R. unfold atT. replace (-1)%R with (Ropp 1) by ring. change (hornerR (1 / INR 1 :: atc (Ropp 1) 3 47)%R (b * b)) with (1 / INR 1 + b * b * hornerR (atc (Ropp 1) 3 47) (b * b))%R. f_equal. cbn. field. }
  rewrite E in A. replace (Rabs (atan b - (b + b * (b * b * hornerR atT (b * b))))) with (Rabs (atan (Rabs b) - Rabs b * (1 + b * b * hornerR atT (b * b)))).
  - eapply Rle_trans; [exact A|]. apply Rmult_le_compat_l; auto.
    assert (Z : (b * b <= IZR 7 / IZR 16)%R). { rewrite sq_abs. assert (M : (IZR at_ma * UU <= 6611 / 10000)%R). { assert (Q : (IZR at_ma * 10000 <= 6611 * IZR (2 ^ 140))%R) by (rewrite <- !mult_IZR; apply IZR_le; vm_compute; discriminate). apply Rmult_le_compat_r with (r := UU) in Q; [|lra]. rewrite (Rmult_assoc 6611), UU_inv in Q. lra. } nra. }
    apply Rle_trans with (/ 2 ^ 57)%R; [apply (@pow_rat 7 16 48 (b * b) 57); [lia| |vm_compute; discriminate]; split; [nra|exact Z]|]. right. unfold UU. change (IZR (2 ^ 83)) with (bpow radix2 83). rewrite <- bpow_plus. change (83 + -140) with (- (57)). rewrite bpow_opp. f_equal. cbn. ring.
  - unfold Rabs at 2 3. destruct (Rcase_abs b); [|f_equal; ring]. rewrite atan_opp. rewrite <- (Rabs_Ropp (atan b - _)). f_equal. ring.
Qed.
Lemma asin_poly b : (Rabs b <= IZR as_ma * UU)%R -> (Rabs (asin b - (b + b * (b * b * hornerR asT (b * b)))) <= Rabs b * (IZR (2 ^ 86) * UU))%R.
Proof.
  intros Hb. pose proof (Rabs_pos b) as B0. pose proof UU_pos as UP. assert (M : (Rabs b <= 5 / 8)%R). { eapply Rle_trans; [exact Hb|]. right. change as_ma with (5 * 2 ^ 137). rewrite mult_IZR. pose proof UU_inv as UI. change (2 ^ 140) with (8 * 2 ^ 137) in UI. rewrite mult_IZR in UI. lra. }
  assert (Z : (b * b <= IZR 25 / IZR 64)%R) by (rewrite sq_abs; nra).
  assert (A := @asin_taylor (Rabs b) B0). rewrite <- sq_abs in A. specialize (A ltac:(lra)).
  assert (E : hornerR (asc 1 (bl nb)) (b * b) = (1 + b * b * hornerR asT (b * b))%R).
  { unfold asT. assert (E1 : asc 1 (bl nb) = (IZR p4 / IZR p4 / INR 1)%R :: tl (asc 1 (bl nb))) by reflexivity. rewrite E1 at 1. set (t := tl _). change (hornerR ((IZR p4 / IZR p4 / INR 1)%R :: t) (b * b)) with (IZR p4 / IZR p4 / INR 1 + b * b * hornerR t (b * b))%R. f_equal. pose proof p4_pos. change (INR 1) with 1%R. field. lra. }
  rewrite E in A. replace (Rabs (asin b - (b + b * (b * b * hornerR asT (b * b))))) with (Rabs (asin (Rabs b) - Rabs b * (1 + b * b * hornerR asT (b * b)))).
  - eapply Rle_trans; [exact A|]. apply Rmult_le_compat_l; auto. assert (P := @pow_rat 25 64 41 (b * b) 55 ltac:(lia) ltac:(split; [nra|exact Z]) ltac:(vm_compute; discriminate)). change (S nb) with 41%nat.
    assert (Q : (IZR (2 ^ 86) * UU = 2 * / 2 ^ 55)%R). { unfold UU. change (IZR (2 ^ 86)) with (bpow radix2 86). rewrite <- bpow_plus. change (86 + -140) with (1 + - (55)). rewrite bpow_plus, bpow_opp. f_equal. f_equal. cbn. ring. } rewrite Q. lra.
  - unfold Rabs at 2 3. destruct (Rcase_abs b); [|f_equal; ring]. rewrite asin_opp. rewrite <- (Rabs_Ropp (asin b - _)). f_equal. ring.
Qed.
Section K.
Context {X : xty} (HX : xty_ok X) (HF : is_int (xT X) = false) (fm : bool) (nn : nans).
Local Notation f := (xf X).
Local Notation W := (fw f).
Local Notation u := (bpow radix2 (- prec (xf X))).
Definition kern (P Q : list Z) (b : Z) : Z := let z := fmul nn f b b in fmadd1 (X := X) nn fm b (fmul nn f z (fdiv nn f (polevl1 (X := X) fm nn z P) (polevl1 (X := X) fm nn z Q))) b.
Lemma kern_err (G : R -> R) P Q T TI ma n k B c l B2 M t m b : Forall2 iv TI T -> ratchk f P Q TI (Z.to_nat n) k B c l B2 = true -> snd (kernB f P Q TI ma n k l B2 M) = true -> 0 <= k <= 280 -> 0 < l ->
  ksum f (kernB f P Q TI ma n k l B2 M) B l t <= m * 2 ^ (140 - prec f) ->
  word W b -> isfin f b = true -> (Rabs (val f b) <= IZR ma * UU)%R -> (Rabs (G (val f b) - (val f b + val f b * (val f b * val f b * hornerR T (val f b * val f b)))) <= Rabs (val f b) * (IZR t * UU))%R ->
  isfin f (kern P Q b) = true /\ (Rabs (val f (kern P Q b) - G (val f b)) <= IZR m * u * Rabs (val f b) + 3 * eta f)%R.
Proof.
  intros HT RC KO Hk Hl KS Wb Fb Bb GT. destruct (kernB f P Q TI ma n k l B2 M) as [[ew mw] o] eqn:KB. cbn [snd] in KO. subst o. apply (@ksum_ok _ _ _ _ _ _ _ _ Hl) in KS.
  destruct (@kern_rel X HF fm nn P Q T TI HT ma n k B c l B2 M ew mw RC KB Hk b Wb Fb Bb) as [F R]. fold (kern P Q b) in F, R. split; auto.
  set (y := val f (kern P Q b)) in *. set (v := val f b) in *. set (h := (v + v * (v * v * hornerR T (v * v)))%R) in *. replace (y - G v)%R with ((y - h) + - (G v - h))%R by ring. eapply Rle_trans; [apply Rabs_triang|]. rewrite Rabs_Ropp.
  pose proof (Rabs_pos v) as V0. apply Rmult_le_compat_l with (r := Rabs v) in KS; auto. lra.
Qed.
Lemma at_kern b : word W b -> isfin f b = true -> (Rabs (val f b) <= IZR at_ma * UU)%R ->
  isfin f (kern (atan_p W) (atan_q W) b) = true /\ (Rabs (val f (kern (atan_p W) (atan_q W) b) - atan (val f b)) <= 7 * u * Rabs (val f b) + 3 * eta f)%R.
Proof. intros Wb Fb Bb. destruct (at_num f) as [N1 N2]. apply (@kern_err atan _ _ _ _ at_ma 28 6 (at_B f) _ at_l _ (2 ^ 139) (2 ^ 83) 7 b atTI_ok (at_rat f) N1); auto; [lia|reflexivity|]. now apply atan_poly. Qed.
Lemma as_kern b : word W b -> isfin f b = true -> (Rabs (val f b) <= IZR as_ma * UU)%R ->
  isfin f (kern (asin_p W) (asin_q W) b) = true /\ (Rabs (val f (kern (asin_p W) (asin_q W) b) - asin (val f b)) <= 9 * u * Rabs (val f b) + 3 * eta f)%R.
Proof. intros Wb Fb Bb. destruct (as_num f) as [N1 N2]. apply (@kern_err asin _ _ _ _ as_ma 25 6 (as_B f) _ as_l _ (57 * 2 ^ 132) (2 ^ 86) 9 b asTI_ok (as_rat f) N1); auto; [lia|reflexivity|]. now apply asin_poly. Qed.
End K.
Close Scope Z_scope.
