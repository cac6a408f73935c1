(** scalbn: the lane function is correct rounding of x * 2^n. *)
From Coq Require Import ZifyBool ZifyNat Reals Lra Psatz.
From Flocq Require Import Core IEEE754.BinarySingleNaN IEEE754.Binary IEEE754.Bits.
From Verif Require Import Base Cxx Spec GenericProofs X86Vec X86 X86Lemmas X86Proofs X86Ops Fp FpLemmas FpOps FMath FMathProofs FLane FFields FManip FManipLanes.
Set Implicit Arguments.
Open Scope Z_scope.

Section Norm.
Context (nn : nans) {f : fmt}.
Local Notation W := (fw f).
Local Notation M := (mw f).
Local Notation E := (eb f).

Lemma exp_mult_join : exp_mult W = join f false (2 ^ (E - 1) - 1 + M + 2) 0. Proof. destruct f; reflexivity. Qed.
Lemma exp_multm_join : exp_multm W = join f false (2 ^ (E - 1) - 1 - M - 2) 0. Proof. destruct f; reflexivity. Qed.
Lemma emin_off : emin f = 2 - 2 ^ (E - 1) - M. Proof. unfold emin, prec, emax. lia. Qed.
Lemma pow_join e : 1 <= e < 2 ^ E - 1 -> val f (join f false e 0) = bpow radix2 (e - (2 ^ (E - 1) - 1)).
Proof.
  intros He. rewrite join_val by (pose proof (@mm_pos f); lia). cbn [sgnr]. pose proof (@mw_pos f). rewrite Z.add_0_l. change (2 ^ M) with (Zpower radix2 M). rewrite IZR_Zpower by lia.
  rewrite <- bpow_plus. f_equal. rewrite emin_off. lia.
Qed.
Lemma half_e : 2 ^ E = 2 * 2 ^ (E - 1) /\ M + 4 < 2 ^ (E - 1). Proof. destruct f; cbn; lia. Qed.
Lemma val_exp_mult : word W (exp_mult W) /\ isfin f (exp_mult W) = true /\ fsign W (exp_mult W) = false /\ val f (exp_mult W) = bpow radix2 (M + 2).
Proof.
  pose proof half_e. pose proof (@mm_pos f). pose proof (@mw_pos f). rewrite exp_mult_join. rewrite pow_join by lia.
  split; [apply join_word; lia|]. split; [apply join_fin; lia|]. split; [apply join_sign; lia|]. f_equal. lia.
Qed.
Lemma val_exp_multm : word W (exp_multm W) /\ isfin f (exp_multm W) = true /\ fsign W (exp_multm W) = false /\ val f (exp_multm W) = bpow radix2 (- (M + 2)).
Proof.
  pose proof half_e. pose proof (@mm_pos f). pose proof (@mw_pos f). rewrite exp_multm_join. rewrite pow_join by lia.
  split; [apply join_word; lia|]. split; [apply join_fin; lia|]. split; [apply join_sign; lia|]. f_equal. lia.
Qed.
Lemma fields_val x : word W x -> isfin f x = true -> mexp f (fmag W x) <> 0 ->
  val f x = sgnr (fsign W x) (IZR (mman f (fmag W x) + 2 ^ M) * bpow radix2 (mexp f (fmag W x) + emin f - 1)).
Proof.
  intros Hx Fx He. pose proof (mexp_range (f := f) x). pose proof (mman_range (f := f) (fmag W x)).
  rewrite (isfin_spec Hx), (fin_fields Hx) in Fx. rewrite (join_split Hx) at 1. apply join_val; lia.
Qed.
Lemma fields_val0 x : word W x -> mexp f (fmag W x) = 0 ->
  val f x = sgnr (fsign W x) (IZR (mman f (fmag W x)) * bpow radix2 (emin f)).
Proof.
  intros Hx He. pose proof (mman_range (f := f) (fmag W x)). rewrite (join_split Hx) at 1. rewrite He. apply join_val0; lia.
Qed.

(** scaling a subnormal by 2^(M+2) is exact and gives a normal number *)
Lemma norm_sub x : word W x -> fmag W x <> 0 -> mexp f (fmag W x) = 0 ->
  let nx := fmul nn f x (exp_mult W) in
  isfin f nx = true /\ fsign W nx = fsign W x /\ 1 <= mexp f (fmag W nx) <= M + 2 /\ val f nx = (val f x * bpow radix2 (M + 2))%R.
Proof.
  intros Hx Nz He nx. pose proof (mman_range (f := f) (fmag W x)) as R. pose proof (mag_split (f := f) (fmag W x)) as S. rewrite He in S.
  pose proof half_e as HE. pose proof (@mm_pos f). pose proof (@mw_pos f). destruct val_exp_mult as (Cw & Cf & Cs & Cv).
  set (m := mman f (fmag W x)) in *. assert (Hm : 1 <= m < 2 ^ M) by (pose proof (fmag_nonneg (f := f) x); lia). clearbody m.
  assert (Fx : isfin f x = true). { rewrite (isfin_spec Hx), (fin_fields Hx), He. pose proof (@ee_pos f). lia. }
  assert (Vx := fields_val0 Hx He). 
  assert (Mx : mman f (fmag W x) = m). { unfold mman. rewrite S, Z.mul_0_r, Z.add_0_l. apply Z.mod_small. lia. } rewrite Mx in Vx.
  assert (P : (val f x * bpow radix2 (M + 2))%R = sgnr (fsign W x) (IZR m * bpow radix2 (emin f + (M + 2)))).
  { rewrite Vx, <- sgnr_mul, Rmult_assoc, <- bpow_plus. reflexivity. }
  assert (G : generic_format radix2 (SpecFloat.fexp (prec f) (emax f)) (val f x * bpow radix2 (M + 2))).
  { rewrite P. assert (generic_format radix2 (SpecFloat.fexp (prec f) (emax f)) (IZR m * bpow radix2 (emin f + (M + 2)))).
    { apply fmt_F2R. 2: lia. unfold prec. rewrite Z.pow_add_r by lia. lia. }
    destruct (fsign W x); cbn [sgnr]; auto. now apply generic_format_opp. }
  assert (B : (bpow radix2 (emin f + (M + 2)) <= Rabs (val f x * bpow radix2 (M + 2)) < bpow radix2 (emin f + (M + 2) + M))%R).
  { rewrite P, sgnr_abs. 2:{ apply Rmult_le_pos. apply IZR_le; lia. apply bpow_ge_0. }
    pose proof (bpow_gt_0 radix2 (emin f + (M + 2))) as Bp. rewrite (bpow_plus _ _ M). rewrite <- (IZR_Zpower radix2 M) by lia. change (Zpower radix2 M) with (2 ^ M).
    assert (1 <= IZR m < IZR (2 ^ M))%R. { split; [apply IZR_le|apply IZR_lt]; lia. } change (radix_val radix2) with 2. nra. }
  unfold nx. rewrite <- Cv in *.
  destruct (@fmul_fin nn f x (exp_mult W) Hx Cw Fx Cf) as (V & Fn & Sn).
  { rewrite rnd_id by exact G. eapply Rlt_trans. apply B. apply bpow_lt. rewrite emin_off. unfold emax. lia. }
  rewrite rnd_id in V by exact G. rewrite Cs, Bool.xorb_false_r in Sn.
  split; [exact Fn|]. split; [exact Sn|]. split; [|exact V].
  fold nx in V, Fn, Sn |- *. assert (Hn : word W nx) by apply fmul_word. rewrite <- V in B.
  pose proof (mexp_range (f := f) nx) as Re. pose proof (mman_range (f := f) (fmag W nx)) as Rm.
  destruct (Z.eq_dec (mexp f (fmag W nx)) 0) as [Z0|Z0].
  - exfalso. rewrite (fields_val0 Hn Z0), sgnr_abs in B. 2:{ apply Rmult_le_pos. apply IZR_le; lia. apply bpow_ge_0. }
    destruct B as [B _]. rewrite (bpow_plus _ _ (M + 2)) in B. pose proof (bpow_gt_0 radix2 (emin f)).
    assert (IZR (mman f (fmag W nx)) < bpow radix2 M)%R. { rewrite <- IZR_Zpower by lia. apply IZR_lt. apply Rm. }
    assert (bpow radix2 M < bpow radix2 (M + 2))%R by (apply bpow_lt; lia). nra.
  - rewrite (fields_val Hn Fn Z0), sgnr_abs in B. 2:{ apply Rmult_le_pos. apply IZR_le; lia. apply bpow_ge_0. }
    pose proof (sig_bounds (mexp f (fmag W nx) + emin f - 1) Rm) as Q.
    assert (bpow radix2 (M + (mexp f (fmag W nx) + emin f - 1)) < bpow radix2 (emin f + (M + 2) + M))%R by lra.
    apply lt_bpow in H1. lia.
Qed.

(** every finite non-zero x is (1.m') * 2^(E0 - bias) with E0 possibly below 1 *)
Lemma norm_form x : word W x -> isfin f x = true -> fmag W x <> 0 ->
  let nx := fmul nn f x (exp_mult W) in let e := mexp f (fmag W x) in
  exists E0 m', 0 <= m' < 2 ^ M /\ - M - 1 <= E0 < 2 ^ E - 1 /\
    val f x = sgnr (fsign W x) (IZR (m' + 2 ^ M) * bpow radix2 (E0 + emin f - 1)) /\
    (e <> 0 -> E0 = e /\ mman f (fmag W x) = m') /\
    (e = 0 -> E0 <= 0 /\ mexp f (fmag W nx) = E0 + (M + 2) /\ mman f (fmag W nx) = m' /\ fsign W nx = fsign W x).
Proof.
  intros Hx Fx Nz nx e. pose proof (@mw_pos f). destruct (Z.eq_dec e 0) as [Z0|Z0].
  - destruct (norm_sub Hx Nz Z0) as (Fn & Sn & Rn & Vn). fold nx in Fn, Sn, Rn, Vn. assert (Hn : word W nx) by apply fmul_word.
    exists (mexp f (fmag W nx) - (M + 2)), (mman f (fmag W nx)). pose proof half_e.
    split; [apply mman_range|]. split; [lia|]. split; [|split; [lia|intros _; repeat split; auto; lia]].
    rewrite (fields_val Hn Fn) in Vn by lia. rewrite Sn in Vn.
    replace (val f x) with (val f x * bpow radix2 (M + 2) * bpow radix2 (- (M + 2)))%R.
    2:{ rewrite Rmult_assoc, <- bpow_plus. replace (M + 2 + - (M + 2)) with 0 by lia. cbn [bpow]. lra. }
    rewrite <- Vn, <- sgnr_mul, Rmult_assoc, <- bpow_plus. do 3 f_equal. lia.
  - exists e, (mman f (fmag W x)). split; [apply mman_range|].
    assert (R := Fx). rewrite (isfin_spec Hx), (fin_fields Hx) in R. pose proof (mexp_range (f := f) x). fold e in R, H0.
    split; [lia|]. split; [now apply fields_val|]. split; [auto|lia].
Qed.
End Norm.

Section Small.
Context (nn : nans) {f : fmt}.
Local Notation W := (fw f).
Local Notation M := (mw f).
Local Notation E := (eb f).
Lemma wrap_add a b : (wrap W a + wrap W b) mod 2 ^ W = wrap W (a + b).
Proof. unfold wrap. symmetry. apply Zplus_mod. Qed.
Lemma wrap_sub a b : (wrap W a - wrap W b) mod 2 ^ W = wrap W (a - b).
Proof. unfold wrap. symmetry. apply Zminus_mod. Qed.
Lemma huge_inf s : fmul nn f (huge W) (Z.lor (huge W) (sbit f s)) = infs f s.
Proof. clear. destruct f, s; vm_compute; reflexivity. Qed.
Lemma tiny_zero s : fmul nn f (tiny W) (Z.lor (tiny W) (sbit f s)) = szero f s.
Proof. clear. destruct f, s; vm_compute; reflexivity. Qed.
Lemma szero_fin s : isfin f (szero f s) = true /\ val f (szero f s) = 0%R /\ fsign W (szero f s) = s.
Proof. clear. unfold isfin, val. rewrite dec_szero. repeat split. destruct f, s; reflexivity. Qed.
Lemma feq_zero x : word W x -> isfin f x = true -> fmag W x <> 0 -> feq W x 0 = false.
Proof.
  intros Hx Fx Nz. unfold feq. rewrite (fin_fnan Hx Fx). replace (fkey W 0) with 0 by (clear; destruct f; reflexivity).
  replace (fnan W 0) with false by (clear; destruct f; reflexivity). unfold fkey. destruct (fsign W x); cbn; lia.
Qed.
Lemma small_consts : 2 ^ E <= 2048 /\ 256 <= 2 ^ E /\ M <= 52 /\ 2 ^ W = 2 * 2 ^ (W - 1) /\ 2 ^ 31 <= 2 ^ (W - 1).
Proof. clear. destruct f; cbn; lia. Qed.
Lemma wrap_neg a : - 2 ^ (W - 1) <= a < 0 -> wrap W a = a + 2 ^ W.
Proof. intros Ha. pose proof small_consts. unfold wrap. symmetry. apply (Z.mod_unique _ _ (-1)); lia. Qed.
Lemma wrap_pos a : 0 <= a < 2 ^ (W - 1) -> wrap W a = a.
Proof. intros Ha. pose proof small_consts. unfold wrap. apply Z.mod_small. lia. Qed.

End Small.

Section Main.
Context (nn : nans) {f : fmt} (g : Z -> Z -> bool) (B : Z).
Local Notation W := (fw f).
Local Notation M := (mw f).
Local Notation E := (eb f).
Hypothesis HB : 2 ^ 31 <= B <= 2 ^ (W - 1).
(** [g] compares counts exactly in the range [-B, B) *)
Hypothesis Hg : forall a b, - B <= a < B -> - B <= b < B -> g (wrap W a) (wrap W b) = (a >? b).

(** [scalbn1] with the width of the format and the comparison abstracted *)
Definition scalbnW (x n : Z) : Z :=
  let em := 2 ^ E - 1 in
  let x_exp := Z.land (lshr_bits M x) em in
  let norm_x := fmul nn f x (exp_mult W) in
  let ne := Z.land (lshr_bits M norm_x) em in
  let ne := (ne - wrap W (M + 2)) mod 2 ^ W in
  let sub := x_exp =? 0 in
  let ne := Z.lor x_exp (if sub then ne else 0) in
  let norm_i := if sub then norm_x else x in
  let fwd := feq W x 0 || (ne =? em) in
  let ne := (ne + n) mod 2 ^ W in
  let ovf := negb fwd && (g n (wrap W max_scalbn) || g ne (wrap W (em - 1))) in
  let unf := negb fwd && (g (wrap W (- max_scalbn)) n || g (wrap W (- M - 1)) ne) in
  let nr := g ne 0 in
  let ne := (ne + (if nr then 0 else wrap W (M + 2))) mod 2 ^ W in
  let ne := shl_bits W M ne in
  let y := Z.lor (Z.land norm_i (2 ^ W - 1 - em * 2 ^ M)) ne in
  let y := if fwd then x else y in
  let nr := negb fwd && nr in
  let y := if nr then y else fmul nn f (if nr then 0 else y) (exp_multm W) in
  let sg := sbit f (fsign W x) in
  let y := if ovf then fmul nn f (huge W) (Z.lor (huge W) sg) else y in
  if unf then fmul nn f (tiny W) (Z.lor (tiny W) sg) else y.

(** the lane function on a finite non-zero x, in terms of its normalised exponent *)
Lemma scalbnW_eq x n E0 m' : word W x -> isfin f x = true -> fmag W x <> 0 -> 0 <= m' < 2 ^ M -> - M - 1 <= E0 < 2 ^ E - 1 ->
  let e := mexp f (fmag W x) in let nx := fmul nn f x (exp_mult W) in
  (e <> 0 -> E0 = e /\ mman f (fmag W x) = m') ->
  (e = 0 -> E0 <= 0 /\ mexp f (fmag W nx) = E0 + (M + 2) /\ mman f (fmag W nx) = m' /\ fsign W nx = fsign W x) ->
  scalbnW x (wrap W n) =
    (let s := fsign W x in let t := E0 + n in
     let nr := g (wrap W t) (wrap W 0) in
     let z := Z.lor (join f s 0 m') (shl_bits W M (wrap W (t + (if nr then 0 else M + 2)))) in
     if g (wrap W (- max_scalbn)) (wrap W n) || g (wrap W (- M - 1)) (wrap W t) then szero f s
     else if g (wrap W n) (wrap W max_scalbn) || g (wrap W t) (wrap W (2 ^ E - 2)) then infs f s
     else if nr then z else fmul nn f z (exp_multm W)).
Proof.
  intros Hx Fx Nz Hm HE0 e nx Cn Cs. pose proof (@small_consts f) as SC. pose proof (@mw_pos f) as HM. pose proof (mexp_range (f := f) x) as Re. fold e in Re.
  unfold scalbnW. cbv zeta. rewrite (exp_field Hx). fold e. fold nx.
  assert (Hnx : word W nx) by apply fmul_word. rewrite (exp_field Hnx).
  assert (Ne : Z.lor e (if e =? 0 then (mexp f (fmag W nx) - wrap W (M + 2)) mod 2 ^ W else 0) = wrap W E0).
  { destruct (Z.eqb_spec e 0) as [Z0|Z0].
    - destruct (Cs Z0) as (L0 & En & _). rewrite Z0, Z.lor_0_l, En.
      replace (E0 + (M + 2)) with (wrap W (E0 + (M + 2))) by (apply wrap_pos; clear - HE0 SC HM; lia).
      rewrite wrap_sub. f_equal. lia.
    - destruct (Cn Z0) as (-> & _). rewrite Z.lor_0_r. symmetry. apply wrap_pos. clear - Re SC; lia. }
  rewrite Ne. clear Ne. rewrite (feq_zero Hx Fx Nz). cbn [orb].
  assert (Nf : (wrap W E0 =? 2 ^ E - 1) = false).
  { clear - HE0 SC HM; destruct (Z.lt_ge_cases E0 0); [rewrite wrap_neg by lia|rewrite wrap_pos by lia]; lia. }
  rewrite Nf. clear Nf. cbn [negb andb]. rewrite wrap_add.
  set (ni := if e =? 0 then nx else x).
  assert (Zi : Z.land ni (2 ^ W - 1 - (2 ^ E - 1) * 2 ^ M) = join f (fsign W x) 0 m').
  { assert (Hni : word W ni) by (unfold ni; destruct (e =? 0); auto). rewrite (clear_exp Hni). unfold ni. destruct (Z.eqb_spec e 0) as [Z0|Z0].
    - destruct (Cs Z0) as (_ & _ & -> & ->). reflexivity.
    - destruct (Cn Z0) as (_ & ->). reflexivity. }
  rewrite Zi. clear Zi. rewrite huge_inf, tiny_zero. change (wrap W 0) with 0.
  replace (2 ^ E - 1 - 1) with (2 ^ E - 2) by lia.
  assert (A : forall b : bool, (wrap W (E0 + n) + (if b then 0 else wrap W (M + 2))) mod 2 ^ W = wrap W (E0 + n + (if b then 0 else M + 2))).
  { intros b. replace (if b then 0 else wrap W (M + 2)) with (wrap W (if b then 0 else M + 2)) by (destruct b; reflexivity). apply wrap_add. }
  rewrite A. clear A. destruct (g (wrap W (E0 + n)) 0); reflexivity.
Qed.

(** the result for a finite, non-zero x *)
Theorem scalbnW_fin x N : word W x -> isfin f x = true -> fmag W x <> 0 -> - B <= N < B - 2 ^ E ->
  let y := scalbnW x (wrap W N) in let v := (val f x * bpow radix2 N)%R in
  if Rlt_bool (Rabs (rnd f v)) (bpow radix2 (emax f)) then isfin f y = true /\ val f y = rnd f v /\ fsign W y = fsign W x
  else y = infs f (fsign W x).
Proof.
  intros Hx Fx Nz HN y v. pose proof (@half_e f) as HE. pose proof (@mm_pos f) as Hmm. pose proof (@mw_pos f) as HM. pose proof (@small_consts f) as SC.
  destruct (norm_form nn Hx Fx Nz) as (E0 & m' & Hm & HE0 & Vx & Cn & Cs). cbv zeta in Cn, Cs.
  assert (Y := scalbnW_eq N Hx Fx Nz Hm HE0 Cn Cs). fold y in Y. cbv zeta in Y. clearbody y. clear Cn Cs.
  set (s := fsign W x) in *. set (t := E0 + N) in *.
  assert (V : v = sgnr s (IZR (m' + 2 ^ M) * bpow radix2 (t + emin f - 1))).
  { unfold v. rewrite Vx, <- sgnr_mul, Rmult_assoc, <- bpow_plus. do 3 f_equal. unfold t. lia. }
  assert (Vb : (bpow radix2 (M + (t + emin f - 1)) <= Rabs v < bpow radix2 (M + 1 + (t + emin f - 1)))%R).
  { rewrite V, sgnr_abs. apply sig_bounds; auto. apply Rmult_le_pos; [apply IZR_le; lia|apply bpow_ge_0]. }
  assert (Eo := @emin_off f). assert (Ex : emax f = 2 ^ (E - 1)) by reflexivity.
  unfold max_scalbn in Y. rewrite !Hg in Y by (clear - HB HN SC HM HE0; lia).
  (* underflow *)
  assert (Under : t <= - M - 2 -> y = szero f s -> if Rlt_bool (Rabs (rnd f v)) (bpow radix2 (emax f)) then isfin f y = true /\ val f y = rnd f v /\ fsign W y = s else y = infs f s).
  { intros Ht ->. rewrite rnd_tiny. 2:{ eapply Rlt_le_trans. apply Vb. apply bpow_le. clear - Ht. lia. }
    rewrite Rabs_R0, Rlt_bool_true by apply bpow_gt_0. destruct (@szero_fin f s) as (A & C & D). auto. }
  destruct (Z.gtb_spec (- (50000)) N) as [Lo|Lo]; cbn [orb] in Y. { apply Under; auto. unfold t. clear - Lo HE0 HE SC. lia. }
  assert (Tr : - B <= t < B). { unfold t. clear - HB HN HE0 Lo SC. lia. }
  rewrite !Hg in Y by (clear - HB HN SC HM Tr; lia).
  destruct (Z.gtb_spec (- M - 1) t) as [Un|Un]. { apply Under; auto. clear - Un; lia. }
  clear Under.
  assert (Over : 2 ^ E - 1 <= t -> y = infs f s -> if Rlt_bool (Rabs (rnd f v)) (bpow radix2 (emax f)) then isfin f y = true /\ val f y = rnd f v /\ fsign W y = s else y = infs f s).
  { intros Ht ->. rewrite Rlt_bool_false; auto. apply rnd_ge_bpow. { rewrite Eo, Ex. clear - HE HM. lia. }
    eapply Rle_trans; [|apply Vb]. apply bpow_le. rewrite Eo, Ex. clear - Ht HE. lia. }
  destruct (Z.gtb_spec N 50000) as [Hi|Hi]; cbn [orb] in Y. { apply Over; auto. unfold t. clear - Hi HE0 SC. lia. }
  destruct (Z.gtb_spec t (2 ^ E - 2)) as [Ov|Ov]. { apply Over; auto. clear - Ov; lia. }
  clear Over.
  (* normal result *)
  destruct (Z.gtb_spec t 0) as [Nr|Nr].
  - rewrite Z.add_0_r, wrap_pos, shl_exp, set_exp in Y by (auto; clear - Nr Ov SC; lia).
    assert (Vy : val f y = v). { rewrite Y, join_val, V by (auto; clear - Nr Ov; lia). reflexivity. }
    assert (Fy : isfin f y = true). { rewrite Y. apply join_fin; auto. clear - Nr Ov; lia. }
    rewrite rnd_id by (rewrite <- Vy; apply fmt_val). rewrite <- Vy. rewrite Rlt_bool_true by apply val_lt_emax.
    repeat split; auto. rewrite Y. apply join_sign; auto. clear - Nr Ov; lia.
  - rewrite wrap_pos, shl_exp, set_exp in Y by (auto; clear - Nr Un SC HM HE; lia).
    set (e1 := t + (M + 2)) in *. assert (He1 : 1 <= e1 < 2 ^ E - 1) by (unfold e1; clear - Nr Un HE HM; lia).
    set (z := join f s e1 m') in *. assert (Hz : word W z) by (apply join_word; auto; clear - He1; lia).
    assert (Fz : isfin f z = true) by (apply join_fin; auto; clear - He1; lia).
    assert (Sz : fsign W z = s) by (apply join_sign; auto; clear - He1; lia).
    destruct (@val_exp_multm f) as (Cw & Cf & Csg & Cv).
    assert (P : (val f z * val f (exp_multm W))%R = v).
    { unfold z. rewrite join_val by (auto; clear - He1; lia). rewrite Cv, V, <- sgnr_mul, Rmult_assoc, <- bpow_plus. do 3 f_equal. unfold e1. lia. }
    assert (Lt : (Rabs (rnd f v) < bpow radix2 (emax f))%R).
    { eapply Rle_lt_trans. apply (@rnd_le_bpow f v (M + 1 + emin f)). lia. 2:{ apply bpow_lt. rewrite Eo, Ex. clear - HE HM SC. lia. }
      apply Rlt_le. eapply Rlt_le_trans. apply Vb. apply bpow_le. clear - Nr. lia. }
    destruct (@fmul_fin nn f z (exp_multm W) Hz Cw Fz Cf) as (Vy & Fy & Sy). { rewrite P. exact Lt. }
    rewrite P in Vy. rewrite Rlt_bool_true by exact Lt. rewrite Y. repeat split; auto. rewrite Sy, Sz, Csg. apply Bool.xorb_false_r.
Qed.

(** zeros, infinities and NaNs are multiplied by a power of two: unchanged (NaNs stay NaNs) *)
Theorem scalbnW_special x n : word W x -> (fmag W x = 0 \/ isfin f x = false) ->
  let y := scalbnW x n in if fnan W x then fnan W y = true else y = x.
Proof.
  intros Hx Sp. cbv zeta. pose proof (@small_consts f) as SC. pose proof (mexp_range (f := f) x) as Re.
  destruct (@val_exp_multm f) as (Cw & Cf & Cs & Cv).
  assert (F : scalbnW x n = fmul nn f x (exp_multm W)).
  { unfold scalbnW. cbv zeta. rewrite (exp_field Hx).
    match goal with |- context [feq W x 0 || ?b] => assert (Fw : feq W x 0 || b = true) end.
    { destruct Sp as [Z0|Inf].
      - apply orb_true_iff. left. unfold feq. replace (fkey W 0) with 0 by (clear; destruct f; reflexivity).
        replace (fnan W 0) with false by (clear; destruct f; reflexivity). unfold fnan, fkey. rewrite Z0.
        assert (0 < finf W) by (clear; destruct f; reflexivity). destruct (fsign W x); cbn; lia.
      - apply orb_true_iff. right. rewrite (isfin_spec Hx), (fin_fields Hx) in Inf. assert (mexp f (fmag W x) = 2 ^ E - 1) as -> by lia.
        replace (2 ^ E - 1 =? 0) with false by (clear - SC; lia). rewrite Z.lor_0_r. apply Z.eqb_refl. }
    rewrite Fw. reflexivity. }
  rewrite F. destruct (fnan W x) eqn:Nx. { apply fmul_nan; auto. }
  destruct Sp as [Z0|Inf].
  - rewrite (zero_bits Hx Z0) at 2. rewrite (zero_bits Hx Z0) at 1. unfold fmul. rewrite dec_szero.
    rewrite <- enc_zero. f_equal. generalize (fsign W x). clear. intros s. destruct f, s; vm_compute; reflexivity.
  - assert (I : fmag W x = finf W). { destruct (fclass Hx) as [(A & _)|[(_ & A & _)|(_ & _ & A)]]; congruence. }
    rewrite (inf_bits Hx I) at 2. rewrite (inf_bits Hx I) at 1. unfold fmul. rewrite dec_infs.
    rewrite <- enc_inf. f_equal. generalize (fsign W x). clear. intros s. destruct f, s; vm_compute; reflexivity.
Qed.
End Main.

(** From the vector lane to [scalbnW] *)
Section Conn.
Context (X : xty) (nn : nans).
Local Notation w := (xw X).
Local Notation f := (xf X).
Context (HX : xty_ok X) (HF : is_int (xT X) = false).
Lemma scalbn1_W x n : scalbn1 X nn x n = scalbnW nn (f := f) (gtl X) x n.
Proof.
  unfold scalbn1, scalbnW. cbv zeta. rewrite (xw_fw HX HF).
  replace (mant (fw f)) with (mw f) by (clear; destruct f; reflexivity).
  replace (wrap (fw f) (exp_mask (fw f))) with (2 ^ eb f - 1) by (clear; destruct f; reflexivity).
  replace (exp_mask (fw f) - 1) with (2 ^ eb f - 1 - 1) by (clear; destruct f; reflexivity).
  replace (wrap (fw f) (-1 - exp_mask (fw f) * 2 ^ mw f)) with (2 ^ fw f - 1 - (2 ^ eb f - 1) * 2 ^ mw f) by (clear; destruct f; reflexivity).
  reflexivity.
Qed.
(** the range of counts in which [cmp_gt_l32] compares exactly *)
Definition cbound : Z := if l32 X then 2 ^ 31 else 2 ^ (w - 1).
Lemma cbound_range : 2 ^ 31 <= cbound <= 2 ^ (fw f - 1).
Proof. unfold cbound. rewrite (xw_fw HX HF). destruct (l32 X); destruct f; cbn; lia. Qed.
Lemma gtl_int a b : - cbound <= a < cbound -> - cbound <= b < cbound -> gtl X (wrap (fw f) a) (wrap (fw f) b) = (a >? b).
Proof.
  intros Ha Hb. unfold gtl, cbound in *. rewrite (xw_fw HX HF) in *. destruct (l32 X) eqn:El.
  - assert (32 <= fw f) by (destruct f; cbn; lia). 
    change (wrap (fw f) a mod 2 ^ 32) with (wrap 32 (wrap (fw f) a)). change (wrap (fw f) b mod 2 ^ 32) with (wrap 32 (wrap (fw f) b)).
    rewrite !wrap_wrap_le by lia. rewrite !sgn_wrap by lia. reflexivity.
  - rewrite !sgn_wrap by (try assumption; destruct f; cbn; lia). reflexivity.
Qed.
End Conn.
