(** The rounding functions: meaning of the lanes. *)
From Coq Require Import ZifyBool ZifyNat Reals Lra.
From Flocq Require Import Core IEEE754.BinarySingleNaN IEEE754.Binary.
From Verif Require Import Base Cxx Spec GenericProofs X86Vec X86 X86Lemmas X86Proofs X86Ops X86Shift Fp FpLemmas FpOps FMath FMathProofs FLane FFields FManip FManipLanes FScalbn FModf Cvt CvtProofs LogbProofs PropManip Round RoundProofs RoundLanes.
Set Implicit Arguments.
Local Open Scope Z_scope.

(** nearest integer, halves away from zero *)
Definition away (r : R) : Z := if Rlt_bool r 0 then - Zfloor (- r + / 2) else Zfloor (r + / 2).
(** y is x rounded to an integer by g, with the sign of x (zeros included); NaN and infinities are kept *)
Definition rounds_to (f : fmt) (g : R -> Z) (x y : Z) : Prop :=
  if isnanb f x then isnanb f y = true
  else if isfin f x then isfin f y = true /\ val f y = IZR (g (val f x)) /\ fsign (fw f) y = fsign (fw f) x
  else y = x.
Definition rounds_val (f : fmt) (g : R -> Z) (x y : Z) : Prop := isfin f y = true /\ val f y = IZR (g (val f x)).

Section S.
Context {f : fmt} (nn : nans).
Local Notation W := (fw f).
Local Notation M := (mw f).
Local Notation p := (prec f).
Local Notation fmt_ := (generic_format radix2 (SpecFloat.fexp (prec f) (emax f))).

Lemma fround_ok md x : word W x -> rounds_to f (round_mode md) x (fround nn f md x).
Proof.
  intros Hx. unfold rounds_to. destruct (fclass Hx) as [(N & F) | [(N & I' & F) | (N & I' & F)]]; rewrite (isnan_spec Hx), N, ?F.
  - assert (Q : isnanb f x = true) by (rewrite (isnan_spec Hx); auto). unfold isnanb, fround in *. rewrite dec_enc. destruct (dec f x); try discriminate. unfold Bnearbyint. cbn [B2BSN BinarySingleNaN.Bnearbyint BSN2B]. apply is_nan_build_nan.
  - unfold fround. rewrite (dec_inf Hx I'). unfold Bnearbyint. cbn [B2BSN BinarySingleNaN.Bnearbyint BSN2B]. rewrite enc_inf. symmetry. now apply inf_bits.
  - destruct (@fround_fin nn f md x Hx F) as (A & B & C). auto.
Qed.
Lemma fmt_round md x : word W x -> isfin f x = true -> fmt_ (IZR (round_mode md (val f x))).
Proof. intros Hx Fx. destruct (@fround_fin nn f md x Hx Fx) as (A & _). rewrite <- A. apply fmt_val. Qed.
Lemma flt_val a b : word W a -> word W b -> isfin f a = true -> isfin f b = true -> flt W a b = Rlt_bool (val f a) (val f b).
Proof.
  intros Ha Hb Fa Fb. unfold flt. rewrite (fin_fnan Ha Fa), (fin_fnan Hb Fb), (val_key Ha Fa), (val_key Hb Fb). cbn [negb andb].
  destruct (Z.ltb_spec (fkey W a) (fkey W b)) as [L|L].
  - symmetry. apply Rlt_bool_true. now apply kval_lt_iff.
  - symmetry. apply Rlt_bool_false. now apply kval_le_iff.
Qed.
Lemma fle_val a b : word W a -> word W b -> isfin f a = true -> isfin f b = true -> fle W a b = Rle_bool (val f a) (val f b).
Proof.
  intros Ha Hb Fa Fb. unfold fle. rewrite (fin_fnan Ha Fa), (fin_fnan Hb Fb), (val_key Ha Fa), (val_key Hb Fb). cbn [negb andb].
  destruct (Z.leb_spec (fkey W a) (fkey W b)) as [L|L].
  - symmetry. apply Rle_bool_true. now apply kval_le_iff.
  - symmetry. apply Rle_bool_false. now apply kval_lt_iff.
Qed.
(** x is in the range where the conversion to int32 is defined *)
Definition in32 (x : Z) : Prop := isfin f x = true /\ - 2 ^ 31 <= Ztrunc (val f x) < 2 ^ 31.
Definition txf (x : Z) : Z := fof_int f (sgn 32 (fto_int nn f mode_ZR 32 x)).
Lemma txf_ok x : word W x -> in32 x -> word W (txf x) /\ isfin f (txf x) = true /\ val f (txf x) = IZR (Ztrunc (val f x)).
Proof.
  intros Hx [Fx R]. unfold txf. rewrite (@fto_int_ok nn f mode_ZR 32 x); auto; [|lia]. cbn [round_mode]. rewrite sgn_wrap by (cbn; lia).
  destruct (@fof_int_ok f (Ztrunc (val f x))) as (A & B & C & _). { lia. } split; auto. split; auto. rewrite C. apply rnd_id. exact (@fmt_round mode_ZR x Hx Fx).
Qed.
Lemma small_emax n : Z.abs n <= 2 ^ 64 -> (Rabs (IZR n) < bpow radix2 (emax f))%R.
Proof.
  intros H. apply Rle_lt_trans with (bpow radix2 64); [|apply bpow_lt; destruct f; cbn; lia]. rewrite <- abs_IZR, <- IZR_Zpower by lia. apply IZR_le. exact H.
Qed.
Lemma fone_ok : word W (fone W) /\ isfin f (fone W) = true /\ val f (fone W) = 1%R.
Proof.
  assert (fone W = join f false (2 ^ (eb f - 1) - 1) 0) as -> by (destruct f; reflexivity).
  assert (B : 1 <= 2 ^ (eb f - 1) - 1 < 2 ^ eb f - 1) by (destruct f; cbn; lia). pose proof (@mm_pos f).
  split; [apply join_word; lia|]. split; [apply join_fin; lia|]. rewrite join_val by lia. cbn [sgnr]. change (0 + 2 ^ M) with (2 ^ M). rewrite emin_off. change (2 ^ M) with (Zpower radix2 M).
  rewrite IZR_Zpower by (pose proof (@mw_pos f); lia). rewrite <- bpow_plus.
  match goal with |- bpow _ ?e = _ => replace e with 0 by lia end. reflexivity.
Qed.
Lemma zero_ok : word W 0 /\ isfin f 0 = true /\ val f 0 = 0%R.
Proof. destruct (@szero_fin f false) as (A & B & _). pose proof (@word_zero f false) as Hw. unfold szero, sbit in *. auto. Qed.

Lemma ceil_sse2 x : word W x -> in32 x -> rounds_val f Zceil x (fadd nn f (txf x) (if flt W (txf x) x then fone W else 0)).
Proof.
  intros Hx R. destruct (txf_ok Hx R) as (Wt & Ft & Vt). destruct R as [Fx R]. rewrite (flt_val Wt Hx Ft Fx), Vt.
  destruct fone_ok as (W1 & F1 & V1). destruct zero_ok as (W0 & F0 & V0).
  assert (C : Zceil (val f x) = Ztrunc (val f x) + if Rlt_bool (IZR (Ztrunc (val f x))) (val f x) then 1 else 0).
  { destruct (Rlt_bool_spec (IZR (Ztrunc (val f x))) (val f x)) as [L|L].
    - destruct (Rlt_le_dec (val f x) 0) as [N|N].
      + rewrite Ztrunc_ceil in L by lra. pose proof (Zceil_ub (val f x)). lra.
      + rewrite Ztrunc_floor in * by lra. apply Zceil_floor_neq. lra.
    - destruct (Rlt_le_dec (val f x) 0) as [N|N].
      + rewrite Ztrunc_ceil by lra. lia.
      + rewrite Ztrunc_floor in * by lra. pose proof (Zfloor_lb (val f x)). assert (E : val f x = IZR (Zfloor (val f x))) by lra. rewrite E, Zceil_IZR, Zfloor_IZR. lia. }
  pose proof (@fmt_round mode_UP x Hx Fx) as G. cbn [round_mode] in G.
  set (c := Rlt_bool _ _) in *. set (n := Ztrunc (val f x)) in *. clearbody c.
  destruct (@fadd_fin nn f (txf x) (if c then fone W else 0)) as (A & B & _); try (destruct c; assumption); auto.
  { replace (val f (txf x) + val f (if c then fone W else 0))%R with (IZR (Zceil (val f x))) by (rewrite C, plus_IZR, Vt; destruct c; rewrite ?V1, ?V0; cbn; lra).
    rewrite rnd_id by exact G. apply small_emax. rewrite C. destruct c; lia. }
  split; auto. rewrite A. replace (val f (txf x) + val f (if c then fone W else 0))%R with (IZR (Zceil (val f x))) by (rewrite C, plus_IZR, Vt; destruct c; rewrite ?V1, ?V0; cbn; lra).
  apply rnd_id. exact G.
Qed.
Lemma floor_sse2 x : word W x -> in32 x -> rounds_val f Zfloor x (fsub nn f (txf x) (if flt W x (txf x) then fone W else 0)).
Proof.
  intros Hx R. destruct (txf_ok Hx R) as (Wt & Ft & Vt). destruct R as [Fx R]. rewrite (flt_val Hx Wt Fx Ft), Vt.
  destruct fone_ok as (W1 & F1 & V1). destruct zero_ok as (W0 & F0 & V0).
  assert (C : Zfloor (val f x) = Ztrunc (val f x) - if Rlt_bool (val f x) (IZR (Ztrunc (val f x))) then 1 else 0).
  { destruct (Rlt_bool_spec (val f x) (IZR (Ztrunc (val f x)))) as [L|L].
    - destruct (Rlt_le_dec (val f x) 0) as [N|N].
      + rewrite Ztrunc_ceil in * by lra. rewrite Zceil_floor_neq; [lia|]. intros E. rewrite <- E in L at 2. rewrite Zceil_IZR in L. rewrite <- E in L at 1. lra.
      + rewrite Ztrunc_floor in L by lra. pose proof (Zfloor_lb (val f x)). lra.
    - destruct (Rlt_le_dec (val f x) 0) as [N|N].
      + rewrite Ztrunc_ceil in * by lra. pose proof (Zceil_ub (val f x)). assert (E : val f x = IZR (Zceil (val f x))) by lra. rewrite E, Zceil_IZR, Zfloor_IZR. lia.
      + rewrite Ztrunc_floor by lra. lia. }
  pose proof (@fmt_round mode_DN x Hx Fx) as G. cbn [round_mode] in G.
  set (c := Rlt_bool _ _) in *. set (n := Ztrunc (val f x)) in *. clearbody c.
  assert (E : (val f (txf x) - val f (if c then fone W else 0))%R = IZR (Zfloor (val f x))) by (rewrite C, minus_IZR, Vt; destruct c; rewrite ?V1, ?V0; cbn; lra).
  destruct (@exact_sub nn f (txf x) (if c then fone W else 0) (IZR (Zfloor (val f x)))) as [P Q]; try (destruct c; assumption); auto.
  { apply small_emax. rewrite C. destruct c; lia. } split; auto.
Qed.

(** signs and magnitudes *)
Lemma near_opp r : ZnearestE (- r) = - ZnearestE r.
Proof.
  rewrite Znearest_opp. f_equal. unfold Znearest. destruct (Rcompare _ _); auto. rewrite Z.even_opp, Z.even_add. cbn. destruct (Z.even (Zfloor r)); reflexivity.
Qed.
Lemma near_int n : ZnearestE (IZR n) = n.
Proof. apply Znearest_imp. rewrite Rminus_diag_eq by auto. rewrite Rabs_R0. lra. Qed.
Lemma away_opp r : away (- r) = - away r.
Proof.
  unfold away. destruct (Rlt_bool_spec r 0) as [A|A], (Rlt_bool_spec (- r) 0) as [B|B]; rewrite ?Ropp_involutive; try lra; try lia.
  assert (r = 0)%R as -> by lra. rewrite Ropp_0, Rplus_0_l. assert (Zfloor (/ 2) = 0) as -> by (apply Zfloor_imp; cbn; lra). reflexivity.
Qed.
Definition oddr (g : R -> Z) := forall r, g (- r)%R = - g r.
Lemma sbit_lxor x : word W x -> Z.lxor x (sbit f (fsign W x)) = fmag W x.
Proof.
  intros Hx. destruct (word_split Hx) as [R E]. unfold sbit. destruct (fsign W x) eqn:S.
  - rewrite (neg_lane Hx), S. cbn [negb]. lia.
  - rewrite Z.lxor_0_r. lia.
Qed.
Lemma mag_fin x : word W x -> isfin f x = true -> isfin f (fmag W x) = true /\ val f (fmag W x) = mval f (fmag W x) /\ fsign W (fmag W x) = false.
Proof.
  intros Hx Fx. assert (Wm := fmag_word (f := f) x). assert (S : fsign W (fmag W x) = false) by (unfold fsign; pose proof (fmag_range (f := f) x); lia).
  assert (E : fmag W (fmag W x) = fmag W x) by (unfold fmag at 1; apply Z.mod_small, fmag_range).
  assert (F : isfin f (fmag W x) = true) by (rewrite (isfin_spec Wm), E, <- (isfin_spec Hx); exact Fx).
  split; auto. split; auto. rewrite (val_mag Wm F), S, E. reflexivity.
Qed.
(** setting the sign bit of a non-negative number *)
Lemma set_sign y s : word W y -> isfin f y = true -> fsign W y = false ->
  let z := Z.lor y (sbit f s) in word W z /\ isfin f z = true /\ val f z = sgnr s (val f y) /\ fsign W z = s.
Proof.
  intros Hy Fy Sy z. pose proof (fmag_range (f := f) y) as R. destruct (word_split Hy) as [_ E]. rewrite Sy in E. rewrite Z.add_0_r in E.
  assert (Ez : z = fmag W y + (if s then 2 ^ (W - 1) else 0)). { unfold z, sbit. rewrite E at 1. now apply sign_mag_lor. }
  assert (Wz : word W z) by (rewrite Ez; now apply word_join). assert (Sz : fsign W z = s) by (rewrite Ez; now apply fsign_join).
  assert (Mz : fmag W z = fmag W y) by (rewrite Ez; now apply fmag_join).
  assert (Fz : isfin f z = true) by (rewrite (isfin_spec Wz), Mz, <- (isfin_spec Hy); exact Fy).
  split; auto. split; auto. split; auto. rewrite (val_mag Wz Fz), (val_mag Hy Fy), Sz, Sy, Mz. destruct s; reflexivity.
Qed.
Lemma val_sgnr x : word W x -> isfin f x = true -> val f x = sgnr (fsign W x) (mval f (fmag W x)).
Proof. intros Hx Fx. rewrite (val_mag Hx Fx). destruct (fsign W x); reflexivity. Qed.
Lemma odd_sgnr g s r : oddr g -> g (sgnr s r) = if s then - g r else g r.
Proof. intros O. destruct s; cbn [sgnr]; auto. Qed.
Lemma sgnr_IZR s n : sgnr s (IZR n) = IZR (if s then - n else n).
Proof. destruct s; cbn [sgnr]; auto. now rewrite opp_IZR. Qed.

(** *** rint without SSE4.1 *)
Definition rint_core (a : Z) : Z := fsub nn f (fadd nn f a (rint_offset W)) (rint_offset W).
Lemma offset_ok : word W (rint_offset W) /\ isfin f (rint_offset W) = true /\ val f (rint_offset W) = bpow radix2 M /\ fsign W (rint_offset W) = false.
Proof.
  assert (rint_offset W = join f false (2 ^ (eb f - 1) - 1 + M) 0) as -> by (destruct f; reflexivity).
  assert (B : 1 <= 2 ^ (eb f - 1) - 1 + M < 2 ^ eb f - 1) by (destruct f; cbn; lia). pose proof (@mm_pos f).
  split; [apply join_word; lia|]. split; [apply join_fin; lia|]. split; [|apply join_sign; lia]. rewrite join_val by lia. cbn [sgnr]. change (0 + 2 ^ M) with (2 ^ M). rewrite emin_off. change (2 ^ M) with (Zpower radix2 M).
  rewrite IZR_Zpower by (pose proof (@mw_pos f); lia). rewrite <- bpow_plus.
  match goal with |- bpow _ ?e = _ => replace e with M by lia end. reflexivity.
Qed.
Lemma rint_core_ok a : word W a -> isfin f a = true -> (0 <= val f a <= bpow radix2 M)%R ->
  word W (rint_core a) /\ isfin f (rint_core a) = true /\ val f (rint_core a) = IZR (ZnearestE (val f a)) /\ fsign W (rint_core a) = false.
Proof.
  intros Ha Fa R. destruct offset_ok as (Wo & Fo & Vo & So). unfold rint_core. set (o := rint_offset W) in *. clearbody o. pose proof (@mw_pos f) as MP. pose proof (p_range (f := f)) as PR. pose proof (p_M (f := f)) as PM.
  assert (PB : (bpow radix2 (M + 1) = 2 * bpow radix2 M)%R) by (rewrite bpow_plus; change (bpow radix2 1) with 2%R; ring).
  assert (EM : bpow radix2 M = IZR (2 * 2 ^ (M - 1))). { rewrite <- IZR_Zpower by lia. f_equal. change (Zpower radix2 M) with (2 ^ M). replace M with (M - 1 + 1) at 1 by lia. rewrite Z.pow_add_r by lia. lia. }
  assert (RA : rnd f (val f a + val f o) = IZR (ZnearestE (val f a) + 2 * 2 ^ (M - 1))).
  { rewrite (@rnd_at f _ 0) by (rewrite ?Z.add_0_r, ?PB, ?Vo; try lia; lra). cbn [Z.opp bpow]. rewrite !Rmult_1_r, Vo, EM, near_even. reflexivity. }
  assert (N0 : 0 <= ZnearestE (val f a)) by (apply near_ge; cbn; lra).
  assert (N1 : ZnearestE (val f a) <= 2 * 2 ^ (M - 1)) by (apply near_le; rewrite <- EM; lra).
  destruct (@fadd_fin nn f a o) as (A1 & A2 & _); auto.
  { rewrite RA. apply small_emax. clear -N0 N1. destruct f; [change (mw F32) with 23 in *|change (mw F64) with 52 in *]; lia. }
  rewrite RA in A1. set (s := fadd nn f a o) in *. assert (Ws : word W s) by apply fadd_word. clearbody s.
  assert (D : (val f s - val f o = IZR (ZnearestE (val f a)))%R) by (rewrite A1, Vo, EM, plus_IZR; lra).
  assert (G : fmt_ (IZR (ZnearestE (val f a)))) by exact (@fmt_round mode_NE a Ha Fa).
  destruct (@fsub_fin nn f s o) as (B1 & B2 & B3); auto.
  { rewrite D, rnd_id by exact G. apply small_emax. clear -N0 N1. destruct f; [change (mw F32) with 23 in *|change (mw F64) with 52 in *]; lia. }
  split; [apply fsub_word|]. split; auto. rewrite B1, D, rnd_id by exact G. split; auto. rewrite B3, D. rewrite rcmp_int; [lia|]. intros _.
  assert (S0 : fsign W s = false); [|rewrite S0; reflexivity].
  rewrite (val_sgnr Ws A2) in A1. pose proof (mval_nonneg (f := f) (fmag W s)). destruct (fsign W s); auto. cbn [sgnr] in A1.
  assert (0 < 2 ^ (M - 1)) by (apply pow2_pos; lia). assert (0 < IZR (ZnearestE (val f a) + 2 * 2 ^ (M - 1)))%R by (apply IZR_lt; lia). lra.
Qed.
Lemma int_large x : fmt_ x -> (bpow radix2 M <= x)%R -> exists n, x = IZR n.
Proof. intros G H. destruct (@int_or_small f x G) as [I'|I']; auto. { pose proof (bpow_gt_0 radix2 M). lra. } lra. Qed.
Lemma mval_fmt k : fmt_ (mval f k) -> True. Proof. auto. Qed.
Lemma rint_sse2 x : word W x -> f = F32 \/ isfin f x = false \/ (Rabs (val f x) <= bpow radix2 M)%R ->
  rounds_to f ZnearestE x
    (let s := sbit f (fsign W x) in let a := Z.lxor x s in let tmp := Z.lor (rint_core a) s in
     if fle W (rint_offset W) a then match f with F32 => x | F64 => tmp end else tmp).
Proof.
  intros Hx C. cbv zeta. rewrite (sbit_lxor Hx). destruct offset_ok as (Wo & Fo & Vo & So). assert (Wm := fmag_word (f := f) x).
  assert (Em : fmag W (fmag W x) = fmag W x) by (unfold fmag at 1; apply Z.mod_small, fmag_range).
  unfold rounds_to. destruct (fclass Hx) as [(N & F) | [(N & I' & F) | (N & I' & F)]]; rewrite (isnan_spec Hx), N, ?F.
  - assert (Nm : fnan W (fmag W x) = true) by (rewrite fnan_mag; auto).
    assert (fle W (rint_offset W) (fmag W x) = false) as -> by (unfold fle; rewrite Nm, andb_false_r; reflexivity).
    assert (Wr : word W (rint_core (fmag W x))) by apply fsub_word.
    assert (Nr : fnan W (rint_core (fmag W x)) = true). { apply fsub_nan; auto. apply fadd_word. left. apply fadd_nan; auto. }
    set (y := rint_core (fmag W x)) in *. clearbody y. destruct (word_split Wr) as [R E].
    assert (Q : Z.lor y (sbit f (fsign W x)) = fmag W y + (if fsign W y || fsign W x then 2 ^ (W - 1) else 0)).
    { rewrite E at 1. rewrite <- (sign_mag_lor (fsign W y) R). unfold sbit. rewrite <- Z.lor_assoc. 
      rewrite <- (sign_mag_lor (fsign W y || fsign W x) R). f_equal. destruct (fsign W y), (fsign W x); cbn [orb]; rewrite ?Z.lor_diag, ?Z.lor_0_r, ?Z.lor_0_l; reflexivity. }
    rewrite Q. rewrite (isnan_spec (word_join (fsign W y || fsign W x) R)). unfold fnan. rewrite (fmag_join _ R). exact Nr.
  - rewrite I'. assert (T : fle W (rint_offset W) (finf W) = true) by (clear; destruct f; reflexivity). rewrite T.
    assert (Q : Z.lor (rint_core (finf W)) (sbit f (fsign W x)) = x).
    { rewrite (inf_bits Hx I') at 2. unfold rint_core. clear. destruct nn, f, (fsign _ x); vm_compute; reflexivity. }
    rewrite Q. destruct f; reflexivity.
  - destruct (mag_fin Hx F) as (Fm & Vm & Sm). set (m := fmag W x) in *. rewrite (fle_val Wo Wm Fo Fm), Vo.
    assert (Vx := val_sgnr Hx F). fold m in Vx. rewrite <- Vm in Vx. pose proof (mval_nonneg (f := f) m) as Nn. rewrite <- Vm in Nn.
    assert (Core : (val f m <= bpow radix2 M)%R -> let z := Z.lor (rint_core m) (sbit f (fsign W x)) in
      isfin f z = true /\ val f z = IZR (ZnearestE (val f x)) /\ fsign W z = fsign W x).
    { intros B z. destruct (rint_core_ok Wm Fm (conj Nn B)) as (R1 & R2 & R3 & R4). destruct (set_sign (fsign W x) R1 R2 R4) as (Z1 & Z2 & Z3 & Z4). fold z in Z1, Z2, Z3, Z4.
      split; auto. split; auto. rewrite Z3, R3, Vx, sgnr_IZR. f_equal. symmetry. apply odd_sgnr. exact near_opp. }
    destruct (Rle_bool_spec (bpow radix2 M) (val f m)) as [B|B].
    + assert (Self : isfin f x = true /\ val f x = IZR (ZnearestE (val f x)) /\ fsign W x = fsign W x).
      { split; auto. split; auto. destruct (int_large (@fmt_val f m) B) as [n En]. rewrite Vx, En, sgnr_IZR, near_int. reflexivity. }
      rewrite Vx in C. destruct f eqn:Ef; auto. destruct C as [C|[C|C]]; try congruence. rewrite sgnr_abs in C by lra. apply Core. exact C.
    + apply Core. lra.
Qed.

(** *** round with roundps/roundpd *)
Lemma pred_half_ok : word W (pred_half W) /\ isfin f (pred_half W) = true /\ val f (pred_half W) = (bpow radix2 (-1) - bpow radix2 (- (p + 1)))%R /\ fsign W (pred_half W) = false.
Proof.
  assert (pred_half W = join f false (2 ^ (eb f - 1) - 3) (2 ^ M - 1)) as -> by (destruct f; reflexivity).
  assert (B : 1 <= 2 ^ (eb f - 1) - 3 < 2 ^ eb f - 1) by (destruct f; cbn; lia). pose proof (@mm_pos f). pose proof (@mw_pos f).
  split; [apply join_word; lia|]. split; [apply join_fin; lia|]. split; [|apply join_sign; lia]. rewrite join_val by lia. cbn [sgnr]. rewrite emin_off.
  replace (2 ^ M - 1 + 2 ^ M) with (2 * 2 ^ M - 1) by lia. rewrite minus_IZR, mult_IZR. change (2 ^ M) with (Zpower radix2 M). rewrite IZR_Zpower by lia.
  rewrite (p_M (f := f)). match goal with |- (_ * bpow _ ?e = _)%R => replace e with (-1 - 1 - M) by lia end.
  rewrite Rmult_minus_distr_r. change 2%R with (bpow radix2 1). rewrite <- !bpow_plus. rewrite Rmult_1_l. f_equal; f_equal; lia.
Qed.
Lemma away_pos r : (0 <= r)%R -> away r = Zfloor (r + / 2).
Proof. intros H. unfold away. rewrite Rlt_bool_false by lra. reflexivity. Qed.
Lemma trunc_core v : fmt_ v -> (0 <= v)%R -> let r := rnd f (v + (bpow radix2 (-1) - bpow radix2 (- (p + 1)))) in (0 <= r)%R /\ Ztrunc r = away v.
Proof.
  intros G H r. pose proof (away_core G H) as [A B]. fold r in A, B. rewrite (away_pos H). assert (0 <= Zfloor (v + / 2)) by (apply Zfloor_lub; lra).
  assert (0 <= IZR (Zfloor (v + / 2)))%R by (apply IZR_le; auto). split; [lra|]. rewrite Ztrunc_floor by lra. apply Zfloor_imp. rewrite plus_IZR. lra.
Qed.
Lemma core_emax v : fmt_ v -> (0 <= v < bpow radix2 (emax f))%R -> (rnd f (v + (bpow radix2 (-1) - bpow radix2 (- (p + 1)))) < bpow radix2 (emax f))%R.
Proof.
  intros G [H H']. pose proof (away_core G H) as [_ B]. eapply Rlt_le_trans; [exact B|]. pose proof (@mw_pos f). pose proof (p_range (f := f)).
  assert (EE : bpow radix2 (emax f) = IZR (2 ^ emax f)) by (change (2 ^ emax f) with (Zpower radix2 (emax f)); rewrite IZR_Zpower; auto; lia).
  destruct (int_or_small G H) as [[n En]|S].
  - assert (Zfloor (v + / 2) = n) as ->. { rewrite En. apply Zfloor_imp. rewrite plus_IZR. lra. } rewrite <- plus_IZR, EE. apply IZR_le. rewrite En, EE in H'. apply lt_IZR in H'. lia.
  - pose proof (Zfloor_lb (v + / 2)). assert (L1 : (bpow radix2 (M + 1) <= bpow radix2 (emax f))%R) by (apply bpow_le; destruct f; cbn; lia). rewrite bpow_plus in L1. change (bpow radix2 1) with 2%R in L1.
    assert (L2 : (bpow radix2 2 <= bpow radix2 M)%R) by (apply bpow_le; destruct f; cbn; lia). change (bpow radix2 2) with 4%R in L2. lra.
Qed.
Lemma round_native x : word W x -> rounds_to f away x (fround nn f mode_ZR (fadd nn f x (Z.lor (sbit f (fsign W x)) (pred_half W)))).
Proof.
  intros Hx. destruct pred_half_ok as (Wh & Fh & Vh & Sh). destruct (set_sign (fsign W x) Wh Fh Sh) as (Wo & Fo & Vo & So). rewrite Z.lor_comm.
  set (o := Z.lor _ _) in *. 
  destruct (fclass Hx) as [(N & F) | [(N & I' & F) | (N & I' & F)]].
  - unfold rounds_to. rewrite (isnan_spec Hx), N. assert (Na : fnan W (fadd nn f x o) = true) by (apply fadd_nan; auto).
    assert (Wa := @fadd_word nn f x o). pose proof (@fround_ok mode_ZR _ Wa) as Q. unfold rounds_to in Q. rewrite (isnan_spec Wa), Na in Q. exact Q.
  - unfold rounds_to. rewrite (isnan_spec Hx), N, F. unfold o. clear o Wo Fo Vo So. rewrite (inf_bits Hx I'). clear. destruct nn, f, (fsign _ x); vm_compute; reflexivity.
  - clearbody o. destruct (mag_fin Hx F) as (Fm & Vm & Sm). assert (Vx := val_sgnr Hx F). set (m := mval f (fmag W x)) in *.
    assert (Gm : fmt_ m) by (rewrite <- Vm; apply fmt_val). pose proof (mval_nonneg (f := f) (fmag W x)) as Nn. fold m in Nn. rewrite Vh in Vo.
    destruct (trunc_core Gm Nn) as [T0 T1]. assert (Bm : (m < bpow radix2 (emax f))%R). { pose proof (val_lt_emax (f := f) (fmag W x)) as B. rewrite Vm, Rabs_pos_eq in B; auto. }
    pose proof (core_emax Gm (conj Nn Bm)) as T2.
    set (h := (bpow radix2 (-1) - bpow radix2 (- (p + 1)))%R) in *.
    assert (Hp : (0 < h)%R). { unfold h. assert (bpow radix2 (- (p + 1)) < bpow radix2 (-1))%R by (apply bpow_lt; pose proof (p_range (f := f)); lia). lra. }
    set (r := rnd f (m + h)) in *.
    assert (Rs : rnd f (val f x + val f o) = sgnr (fsign W x) r). { rewrite Vx, Vo. unfold r. destruct (fsign W x); cbn [sgnr]; auto. rewrite <- rnd_opp. f_equal. ring. }
    destruct (@fadd_fin nn f x o) as (A1 & A2 & A3); auto. { rewrite Rs, sgnr_abs; auto. }
    assert (Wa := @fadd_word nn f x o). destruct (@fround_fin nn f mode_ZR _ Wa A2) as (B1 & B2 & B3).
    unfold rounds_to. rewrite (isnan_spec Hx), N, F. split; auto. rewrite B1, B3, A1, A3, Rs, Vx. cbn [round_mode]. split.
    + f_equal. rewrite (odd_sgnr (fsign W x) m away_opp), <- T1. destruct (fsign W x); cbn [sgnr]; auto. apply Ztrunc_opp.
    + rewrite Vo. destruct (fsign W x); cbn [sgnr]; [rewrite Rcompare_Lt by lra|rewrite Rcompare_Gt by lra]; reflexivity.
Qed.

Lemma rnd_le_fmt r g : fmt_ g -> (r <= g)%R -> (rnd f r <= g)%R.
Proof. intros G H. rewrite <- (rnd_id G). now apply rnd_mono. Qed.
Lemma rnd_ge_fmt r g : fmt_ g -> (g <= r)%R -> (g <= rnd f r)%R.
Proof. intros G H. rewrite <- (rnd_id G) at 1. now apply rnd_mono. Qed.
(** *** round without SSE4.1: trunc(x) + trunc((x - trunc(x)) * (2 - ulp)) *)
(** nearest integer, halves toward zero *)
Definition to_zero (r : R) : Z := if Rlt_bool r 0 then - Zceil (- r - / 2) else Zceil (r - / 2).
Lemma to_zero_opp r : to_zero (- r) = - to_zero r.
Proof.
  unfold to_zero. destruct (Rlt_bool_spec r 0) as [A|A], (Rlt_bool_spec (- r) 0) as [B|B]; rewrite ?Ropp_involutive; try lra; try lia.
  assert (r = 0)%R as -> by lra. replace (- 0 - / 2)%R with (- / 2)%R by lra. replace (0 - / 2)%R with (- / 2)%R by lra. assert (Zceil (- / 2) = 0) as -> by (apply Zceil_imp; cbn; lra). reflexivity.
Qed.
Lemma near2_ok : word W (near2 W) /\ isfin f (near2 W) = true /\ val f (near2 W) = (2 - 2 * bpow radix2 (- p))%R.
Proof.
  assert (near2 W = join f false (2 ^ (eb f - 1) - 1) (2 ^ M - 1)) as -> by (destruct f; reflexivity).
  assert (B : 1 <= 2 ^ (eb f - 1) - 1 < 2 ^ eb f - 1) by (destruct f; cbn; lia). pose proof (@mm_pos f). pose proof (@mw_pos f).
  split; [apply join_word; lia|]. split; [apply join_fin; lia|]. rewrite join_val by lia. cbn [sgnr]. rewrite emin_off.
  replace (2 ^ M - 1 + 2 ^ M) with (2 * 2 ^ M - 1) by lia. rewrite minus_IZR, mult_IZR. change (2 ^ M) with (Zpower radix2 M). rewrite IZR_Zpower by lia.
  rewrite (p_M (f := f)). match goal with |- (_ * bpow _ ?e = _)%R => replace e with (- M) by lia end.
  replace (- (M + 1)) with (-1 + - M) by lia. rewrite (bpow_plus _ (-1)). change (bpow radix2 (-1)) with (/ 2)%R.
  rewrite Rmult_minus_distr_r, Rmult_assoc, <- bpow_plus, Z.add_opp_diag_r. cbn [bpow]. lra.
Qed.
Lemma frac_trunc v : fmt_ v -> (0 <= v < 1)%R -> Ztrunc (rnd f (v * (2 - 2 * bpow radix2 (- p)))) = (if Rlt_bool (/ 2) v then 1 else 0) /\ (0 <= rnd f (v * (2 - 2 * bpow radix2 (- p))) < 2)%R.
Proof.
  intros G [H0 H1]. pose proof (p_range (f := f)) as PR. set (t := bpow radix2 (- p)). assert (P : (0 < t)%R) by apply bpow_gt_0.
  assert (Q : (t <= bpow radix2 (-20))%R) by (apply bpow_le; lia). change (bpow radix2 (-20)) with (/ 1048576)%R in Q.
  assert (Tp : (IZR (2 ^ p) * t = 1)%R). { unfold t. change (2 ^ p) with (Zpower radix2 p). rewrite IZR_Zpower by lia. rewrite <- bpow_plus, Z.add_opp_diag_r. reflexivity. }
  assert (P2 : 0 < 2 ^ p) by (apply pow2_pos; lia).
  assert (K1 : fmt_ (1 - t)%R). { replace (1 - t)%R with (IZR (2 ^ p - 1) * t)%R by (rewrite minus_IZR; lra). apply fmt_ok; lia. }
  assert (K2 : fmt_ (2 - 2 * t)%R). { replace (2 - 2 * t)%R with (IZR (2 ^ p - 1) * bpow radix2 (1 + - p))%R by (rewrite minus_IZR, bpow_plus; fold t; change (bpow radix2 1) with 2%R; lra). apply fmt_ok; lia. }
  assert (K0 : fmt_ 1%R) by (apply (@fmt_int f 1); lia).
  set (r := rnd f (v * (2 - 2 * t))).
  assert (R0 : (0 <= r)%R). { unfold r. rewrite <- (@rnd0 f). apply rnd_mono. nra. }
  assert (R2 : (r < 2)%R). { apply Rle_lt_trans with (2 - 2 * t)%R; [|lra]. apply rnd_le_fmt; auto. nra. }
  split; [|lra]. rewrite Ztrunc_floor by lra. destruct (Rlt_bool_spec (/ 2) v) as [L|L].
  - apply Zfloor_imp. cbn. split; [|lra]. apply rnd_ge_fmt; auto.
    destruct (@fmt_mult f v (-1) G) as [m E]. { change (bpow radix2 (-1)) with (/ 2)%R. lra. }
    replace (-1 - M) with (- p) in E by (rewrite (p_M (f := f)); lia). fold t in E.
    assert (Em : 2 ^ (p - 1) + 1 <= m). { assert (IZR (2 ^ (p - 1)) < IZR m)%R. { apply Rmult_lt_reg_r with t; auto. rewrite <- E. replace (IZR (2 ^ (p - 1)) * t)%R with (/ 2)%R; auto.
        assert (IZR (2 ^ p) = 2 * IZR (2 ^ (p - 1)))%R. { rewrite <- mult_IZR. f_equal. replace p with (p - 1 + 1) at 1 by lia. rewrite Z.pow_add_r by lia. lia. } nra. } apply lt_IZR in H. lia. }
    assert (E2 : IZR (2 ^ p) = (2 * IZR (2 ^ (p - 1)))%R). { rewrite <- mult_IZR. f_equal. replace p with (p - 1 + 1) at 1 by lia. rewrite Z.pow_add_r by lia. lia. }
    assert (Lv : (/ 2 + t <= v)%R). { rewrite E. apply IZR_le in Em. rewrite plus_IZR in Em. nra. } nra.
  - apply Zfloor_imp. cbn. split; [lra|]. apply Rle_lt_trans with (1 - t)%R; [|lra]. apply rnd_le_fmt; auto. nra.
Qed.
Lemma frac_fmt v : fmt_ v -> (0 <= v)%R -> fmt_ (v - IZR (Zfloor v))%R.
Proof.
  intros G H. pose proof (p_range (f := f)) as PR. destruct (int_or_small G H) as [[n ->]|S]. { rewrite Zfloor_IZR, Rminus_diag_eq by auto. apply generic_format_0. }
  destruct (Rlt_le_dec v 1) as [L|L]. { rewrite (Zfloor_imp 0) by (cbn; lra). rewrite Rminus_0_r. exact G. }
  destruct (@fmt_mult f v 0 G) as [m E]; [cbn; lra|]. replace (0 - M) with (- M) in E by lia. pose proof (@mw_pos f) as MP.
  assert (En : (IZR (Zfloor v) = IZR (Zfloor v * 2 ^ M) * bpow radix2 (- M))%R). { rewrite mult_IZR. change (2 ^ M) with (Zpower radix2 M). rewrite IZR_Zpower by lia. rewrite Rmult_assoc, <- bpow_plus, Z.add_opp_diag_r. cbn. ring. }
  assert (D : (v - IZR (Zfloor v) = IZR (m - Zfloor v * 2 ^ M) * bpow radix2 (- M))%R) by (rewrite En, minus_IZR, Rmult_minus_distr_r, <- E; reflexivity).
  rewrite D. apply fmt_ok; [|pose proof (p_M (f := f)); lia]. pose proof (Zfloor_lb v) as A. pose proof (Zfloor_ub v) as B.
  assert (U : (0 <= IZR (m - Zfloor v * 2 ^ M) * bpow radix2 (- M) < 1)%R) by (rewrite <- D; lra). pose proof (bpow_gt_0 radix2 (- M)) as P.
  assert (M1 : (1 = IZR (2 ^ M) * bpow radix2 (- M))%R). { change (2 ^ M) with (Zpower radix2 M). rewrite IZR_Zpower by lia. rewrite <- bpow_plus, Z.add_opp_diag_r. reflexivity. }
  destruct U as [U1 U2]. rewrite M1 in U2. apply Rmult_lt_reg_r in U2; auto. apply lt_IZR in U2.
  assert (0 <= m - Zfloor v * 2 ^ M). { apply le_IZR. apply Rmult_le_reg_r with (bpow radix2 (- M)); auto. lra. }
  assert (2 ^ M <= 2 ^ p) by (apply Z.pow_le_mono_r; rewrite ?(p_M (f := f)); lia). lia.
Qed.
Lemma frac_half v n : (IZR n <= v < IZR n + 1)%R -> n + (if Rlt_bool (/ 2) (v - IZR n) then 1 else 0) = Zceil (v - / 2).
Proof.
  intros H. symmetry. apply Zceil_imp. destruct (Rlt_bool_spec (/ 2) (v - IZR n)) as [L|L]; rewrite ?minus_IZR, ?plus_IZR; lra.
Qed.
Lemma to_zero_fmt x : word W x -> isfin f x = true -> fmt_ (IZR (to_zero (val f x))).
Proof.
  intros Hx Fx. assert (Vx := val_sgnr Hx Fx). destruct (mag_fin Hx Fx) as (Fm & Vm & Sm). rewrite Vx, (odd_sgnr _ _ to_zero_opp).
  set (m := mval f (fmag W x)) in *. assert (Gm : fmt_ m) by (rewrite <- Vm; apply fmt_val). pose proof (mval_nonneg (f := f) (fmag W x)) as Nn. fold m in Nn.
  assert (Q : fmt_ (IZR (to_zero m))).
  { unfold to_zero. rewrite Rlt_bool_false by lra. destruct (int_or_small Gm Nn) as [[n E]|S].
    - rewrite E. rewrite (Zceil_imp n). rewrite <- E. exact Gm. rewrite minus_IZR. lra.
    - apply fmt_int. pose proof (@mw_pos f).
      assert (0 <= Zceil (m - / 2)). { assert (-1 < Zceil (m - / 2)); [|lia]. apply lt_IZR. pose proof (Zceil_ub (m - / 2)). cbn. lra. }
      assert (Zceil (m - / 2) <= 2 ^ M). { apply Zceil_glb. change (2 ^ M) with (Zpower radix2 M). rewrite IZR_Zpower by lia. lra. }
      assert (2 ^ M <= 2 ^ p) by (apply Z.pow_le_mono_r; rewrite ?(p_M (f := f)); lia). lia. }
  destruct (fsign W x); auto. rewrite opp_IZR. now apply generic_format_opp.
Qed.
(** the two integers added by the function *)
Lemma round_parts x : word W x -> in32 x ->
  let r := fmul nn f (fsub nn f x (txf x)) (near2 W) in
  word W r /\ in32 r /\ Ztrunc (val f x) + Ztrunc (val f r) = to_zero (val f x) /\ Z.abs (Ztrunc (val f r)) <= 1.
Proof.
  intros Hx R r. destruct (txf_ok Hx R) as (Wt & Ft & Vt). destruct R as [Fx R]. destruct near2_ok as (Wn & Fn & Vn).
  assert (Vx := val_sgnr Hx Fx). destruct (mag_fin Hx Fx) as (Fm & Vm & Sm).
  set (m := mval f (fmag W x)) in *. assert (Gm : fmt_ m) by (rewrite <- Vm; apply fmt_val). pose proof (mval_nonneg (f := f) (fmag W x)) as Nn. fold m in Nn.
  set (s := fsign W x) in *. assert (Tr : Ztrunc (val f x) = if s then - Zfloor m else Zfloor m). { rewrite Vx. rewrite <- (Ztrunc_floor m) by lra. destruct s; cbn [sgnr]; auto. apply Ztrunc_opp. }
  pose proof (frac_fmt Gm Nn) as Gd. set (d := (m - IZR (Zfloor m))%R) in *. pose proof (Zfloor_lb m) as A. pose proof (Zfloor_ub m) as B.
  assert (Hd : (0 <= d < 1)%R) by (unfold d; lra).
  assert (D : (val f x - val f (txf x))%R = sgnr s d). { rewrite Vt, Tr, Vx. unfold d. destruct s; cbn [sgnr]; rewrite ?opp_IZR; lra. }
  assert (Gs : fmt_ (sgnr s d)) by (destruct s; cbn [sgnr]; auto; now apply generic_format_opp).
  assert (E1 : (1 < bpow radix2 (emax f))%R) by (change 1%R with (bpow radix2 0); apply bpow_lt; destruct f; cbn; lia).
  destruct (@exact_sub nn f x (txf x) (sgnr s d)) as [S1 S2]; auto. { rewrite sgnr_abs; lra. }
  set (q := fsub nn f x (txf x)) in *. assert (Wq : word W q) by apply fsub_word. clearbody q.
  destruct (frac_trunc Gd Hd) as [F1 F2]. rewrite <- Vn in F1, F2.
  assert (Rs : rnd f (val f q * val f (near2 W)) = sgnr s (rnd f (d * val f (near2 W)))). { rewrite S1. destruct s; cbn [sgnr]; auto. rewrite <- rnd_opp. f_equal. ring. }
  assert (E2 : (2 < bpow radix2 (emax f))%R) by (change 2%R with (bpow radix2 1); apply bpow_lt; destruct f; cbn; lia).
  destruct (@fmul_fin nn f q (near2 W)) as (M1 & M2 & _); auto. { rewrite Rs, sgnr_abs; lra. }
  fold r in M1, M2. rewrite Rs in M1.
  assert (Tr' : Ztrunc (val f r) = if s then - (if Rlt_bool (/ 2) d then 1 else 0) else if Rlt_bool (/ 2) d then 1 else 0).
  { rewrite M1. rewrite <- F1. destruct s; cbn [sgnr]; auto. apply Ztrunc_opp. }
  assert (T1 : Z.abs (Ztrunc (val f r)) <= 1) by (rewrite Tr'; destruct s, (Rlt_bool _ _); cbn; lia).
  split; [apply fmul_word|]. split. { split; auto. clear -T1. lia. } split; auto.
  rewrite Tr, Tr', Vx, (odd_sgnr _ _ to_zero_opp). unfold to_zero. rewrite (Rlt_bool_false m 0) by (clear -Nn; lra). rewrite <- (@frac_half m (Zfloor m)) by (clear -A B; lra). fold d. clear. destruct s; lia.
Qed.
Lemma round_sse2 x : word W x -> in32 x -> rounds_val f to_zero x (fadd nn f (txf x) (txf (fmul nn f (fsub nn f x (txf x)) (near2 W)))).
Proof.
  intros Hx R. destruct (round_parts Hx R) as (Wr & Rr & S & B). destruct (txf_ok Hx R) as (Wt & Ft & Vt). destruct (txf_ok Wr Rr) as (Wu & Fu & Vu).
  set (u := txf (fmul _ _ _ _)) in *. destruct R as [Fx R]. pose proof (to_zero_fmt Hx Fx) as G.
  assert (E : (val f (txf x) + val f u = IZR (to_zero (val f x)))%R) by (rewrite Vt, Vu, <- S, plus_IZR; reflexivity).
  destruct (@fadd_fin nn f (txf x) u) as (A1 & A2 & _); auto. { rewrite E, rnd_id by exact G. apply small_emax. clear -R S B. cbn [Z.abs] in *. lia. }
  split; auto. rewrite A1, E. apply rnd_id. exact G.
Qed.
(** away from zero and toward zero agree except at half-integers *)
Definition half_int (r : R) : Prop := exists n, r = (IZR n + / 2)%R.
Lemma to_zero_away r : ~ half_int r -> to_zero r = away r.
Proof.
  assert (Q : forall r, ~ half_int r -> (0 <= r)%R -> Zceil (r - / 2) = Zfloor (r + / 2)).
  { clear. intros r N H. set (n := Zfloor (r + / 2)). pose proof (Zfloor_lb (r + / 2)) as A. pose proof (Zfloor_ub (r + / 2)) as B. fold n in A, B.
    apply Zceil_imp. rewrite minus_IZR. split; [|lra]. assert (r <> IZR n - / 2)%R; [|lra]. intros E. apply N. exists (n - 1). rewrite minus_IZR. lra. }
  intros N. unfold to_zero, away. destruct (Rlt_bool_spec r 0) as [L|L]; [f_equal|]; apply Q; auto; [|lra].
  intros [n E]. apply N. exists (- n - 1). rewrite minus_IZR, opp_IZR. lra.
Qed.
Lemma to_zero_half r : half_int r -> to_zero r = Ztrunc r /\ away r <> Ztrunc r.
Proof.
  assert (Q : forall n, 0 <= n -> to_zero (IZR n + / 2) = n /\ away (IZR n + / 2) = n + 1 /\ Ztrunc (IZR n + / 2) = n).
  { clear. intros n H. apply IZR_le in H. split; [|split].
    - unfold to_zero. rewrite Rlt_bool_false by lra. apply Zceil_imp. rewrite minus_IZR. lra.
    - rewrite away_pos by lra. apply Zfloor_imp. rewrite !plus_IZR. lra.
    - rewrite Ztrunc_floor by lra. apply Zfloor_imp. rewrite plus_IZR. lra. }
  intros [n ->]. destruct (Z_le_gt_dec 0 n) as [L|L].
  - destruct (Q n L) as (-> & -> & ->). split; auto. lia.
  - replace (IZR n + / 2)%R with (- (IZR (- n - 1) + / 2))%R by (rewrite minus_IZR, opp_IZR; lra).
    rewrite to_zero_opp, away_opp, Ztrunc_opp. destruct (Q (- n - 1) ltac:(lia)) as (-> & -> & ->). split; lia.
Qed.
End S.

(** *** trunc_sse2 *)
Lemma int_frac x n y : (x = IZR n + y)%R -> (Rabs y < 1)%R -> (0 <= x -> 0 <= y)%R -> (x <= 0 -> y <= 0)%R -> Ztrunc x = n.
Proof.
  intros E B P N. destruct (Rle_lt_dec 0 x) as [L|L].
  - rewrite Ztrunc_floor by auto. apply Zfloor_imp. rewrite plus_IZR. specialize (P L). rewrite Rabs_pos_eq in B by auto. lra.
  - rewrite Ztrunc_ceil by lra. apply Zceil_imp. rewrite minus_IZR. specialize (N ltac:(lra)). rewrite Rabs_left1 in B by auto. lra.
Qed.
Lemma trunc1_field x : word 64 x -> (x / 2 ^ 52) mod 2 ^ 11 = mexp F64 (fmag 64 x).
Proof. intros Hx. pose proof (@exp_field F64 x Hx) as E. cbn [mw fw eb] in E. change (2 ^ 11 - 1) with (Z.ones 11) in E. rewrite Z.land_ones in E by lia. unfold lshr_bits in E. exact E. Qed.
Lemma trunc1_big nn c x : word 64 x -> 1023 <= mexp F64 (fmag 64 x) -> fnan 64 x = false -> trunc1 c x = snd (modfW nn (f := F64) x).
Proof.
  intros Hx He Nx. pose proof (mexp_range (f := F64) x) as Re. cbn [fw eb] in Re. unfold trunc1. rewrite (trunc1_field Hx). cbv zeta.
  unfold modfW. cbv zeta. rewrite (@exp_field F64 x Hx). cbn [fw mw eb]. rewrite Nx. cbn [snd]. set (e := mexp F64 (fmag 64 x)) in *. clearbody e.
  change (2 ^ (11 - 1) - 1) with 1023. rewrite (Z.mod_small (e - 1023)) by lia.
  replace (sgn 64 (e - 1023)) with (e - 1023) by (unfold sgn; replace (e - 1023 <? 2 ^ (64 - 1)) with true by lia; reflexivity).
  replace (0 >? e - 1023) with false by lia. cbn [negb andb].
  replace (if if sse3 c then e - 1023 + 12 <? 12 else e - 1023 + 12 <? 0 then 1 else e - 1023 + 12) with (e - 1023 + 12) by (destruct (sse3 c); [replace (e - 1023 + 12 <? 12) with false by lia|replace (e - 1023 + 12 <? 0) with false by lia]; reflexivity).
  assert (Em : srl64 (e - 1023 + 12) (2 ^ 64 - 1) = if e - 1023 <? 64 then lshr_bits (e - 1023) (2 ^ 52 - 1) else 0).
  { unfold srl64, lshr_bits. destruct (Z.ltb_spec (e - 1023) 52) as [L|L].
    - replace (e - 1023 + 12 <? 64) with true by lia. replace (e - 1023 <? 64) with true by lia. set (j := e - 1023) in *. assert (Hj : 0 <= j) by lia. clearbody j.
      assert (J1 : 2 ^ 64 = 2 ^ (j + 12) * 2 ^ (52 - j)) by (rewrite <- Z.pow_add_r by lia; f_equal; lia). assert (J2 : 2 ^ 52 = 2 ^ j * 2 ^ (52 - j)) by (rewrite <- Z.pow_add_r by lia; f_equal; lia).
      pose proof (pow2_pos (j + 12) ltac:(lia)). pose proof (pow2_pos j ltac:(lia)).
      transitivity (2 ^ (52 - j) - 1).
      + symmetry. apply (Z.div_unique _ _ _ (2 ^ (j + 12) - 1)). left. lia. rewrite J1. lia.
      + apply (Z.div_unique _ _ _ (2 ^ j - 1)). left. lia. rewrite J2. lia.
    - replace (e - 1023 + 12 <? 64) with false by lia. destruct (e - 1023 <? 64); auto. rewrite Z.div_small; auto. split; [lia|]. assert (2 ^ 52 <= 2 ^ (e - 1023)) by (apply Z.pow_le_mono_r; lia). lia. }
  rewrite Em. clear Em. set (mk := if e - 1023 <? 64 then lshr_bits (e - 1023) (2 ^ 52 - 1) else 0). assert (Mn : 0 <= mk < 2 ^ 52).
  { unfold mk. destruct (_ <? 64); [|lia]. unfold lshr_bits. pose proof (pow2_pos (e - 1023) ltac:(lia)). split; [apply Z.div_pos; lia|]. apply Z.div_lt_upper_bound; nia. }
  clearbody mk. destruct (negb _ && _) eqn:Z0; auto. apply andb_true_iff in Z0. destruct Z0 as [_ Z0].
  assert (Lr : 0 <= Z.land x mk < 2 ^ 52). { split; [apply Z.land_nonneg; unfold word in Hx; lia|]. destruct (Z.eq_dec (Z.land x mk) 0) as [-> |NZ]; [lia|]. assert (Z.land x mk <= mk); [|lia]. rewrite Z.land_comm. apply Z.ldiff_le; [lia|].
    apply Z.bits_inj'. intros n Hn. rewrite Z.ldiff_spec, Z.land_spec, Z.bits_0. destruct (Z.testbit mk n), (Z.testbit x n); reflexivity. }
  rewrite (@feq0 F64) in Z0 by exact Lr. apply Z.eqb_eq in Z0. apply Z.bits_inj'. intros n Hn. rewrite Z.ldiff_spec.
  assert (B : Z.testbit (Z.land x mk) n = false) by (rewrite Z0; apply Z.bits_0). rewrite Z.land_spec in B. destruct (Z.testbit x n), (Z.testbit mk n); auto; discriminate.
Qed.
Lemma exp_small x : word 64 x -> isfin F64 x = true -> mexp F64 (fmag 64 x) < 1023 -> (Rabs (val F64 x) < 1)%R.
Proof.
  intros Hx Fx He. rewrite (abs_val F64 Hx Fx). cbn [fw]. set (m := fmag 64 x) in *. pose proof (fmag_range (f := F64) x) as [P _]. cbn [fw] in P. fold m in P.
  destruct (Z.eq_dec m 0) as [-> |NZ]. { rewrite mval_0. lra. }
  destruct (Z.eq_dec (mexp F64 m) 0) as [E|E].
  - destruct (@mval_subnormal F64 m) as [_ B]; auto; [lia|]. eapply Rlt_le_trans; [exact B|]. change 1%R with (bpow radix2 0). apply bpow_le.
    assert (m < 2 ^ 52). { pose proof (mag_split (f := F64) m) as S. rewrite E in S. pose proof (mman_range (f := F64) m). cbn [mw] in *. lia. }
    assert (Z.log2 m < 52) by (apply Z.log2_lt_pow2; lia). change (emin F64) with (-1074). lia.
  - assert (1 <= mexp F64 m). { unfold mexp in *. assert (0 <= m / 2 ^ mw F64) by (apply Z.div_pos; [lia|reflexivity]). lia. }
    destruct (@mval_normal F64 m) as [_ B]; [lia|lia|]. eapply Rlt_le_trans; [exact B|]. change 1%R with (bpow radix2 0). apply bpow_le. cbn [eb]. change (2 ^ (11 - 1) - 1) with 1023. clear -He; lia.
Qed.
Lemma exp_tiny x : word 64 x -> isfin F64 x = true -> (Rabs (val F64 x) < bpow radix2 (-12))%R -> mexp F64 (fmag 64 x) < 1011.
Proof.
  intros Hx Fx H. rewrite (abs_val F64 Hx Fx) in H. cbn [fw] in H. set (m := fmag 64 x) in *. destruct (Z.lt_ge_cases (mexp F64 m) 1011) as [L|L]; auto. exfalso.
  pose proof (fmag_range (f := F64) x) as [P _]. cbn [fw] in P. fold m in P. destruct (@mval_normal F64 m) as [B _]; [lia|lia|]. cbn [eb] in B. change (2 ^ (11 - 1) - 1) with 1023 in B.
  assert (bpow radix2 (-12) <= bpow radix2 (mexp F64 m - 1023))%R by (apply bpow_le; lia). lra.
Qed.
Lemma trunc1_small c x : word 64 x -> (if sse3 c then mexp F64 (fmag 64 x) < 1023 else mexp F64 (fmag 64 x) < 1011) -> trunc1 c x = szero F64 (fsign 64 x).
Proof.
  intros Hx He. unfold trunc1. rewrite (trunc1_field Hx). cbv zeta.
  replace (if if sse3 c then mexp F64 (fmag 64 x) - 1023 + 12 <? 12 else mexp F64 (fmag 64 x) - 1023 + 12 <? 0 then 1 else mexp F64 (fmag 64 x) - 1023 + 12) with 1.
  2:{ destruct (sse3 c); [replace (mexp F64 (fmag 64 x) - 1023 + 12 <? 12) with true by lia|replace (mexp F64 (fmag 64 x) - 1023 + 12 <? 0) with true by lia]; reflexivity. }
  change (srl64 1 (2 ^ 64 - 1)) with (Z.ones 63). rewrite Z.ldiff_ones_r by lia. rewrite Z.shiftl_mul_pow2, Z.shiftr_div_pow2 by lia. unfold szero, sbit, fsign. cbn [fw].
  change (64 - 1) with 63. unfold word in Hx. destruct (Z.leb_spec (2 ^ 63) x) as [L|L].
  - replace (x / 2 ^ 63) with 1 by (apply (Z.div_unique _ _ _ (x - 2 ^ 63)); lia). reflexivity.
  - rewrite Z.div_small by lia. reflexivity.
Qed.
Lemma trunc1_ok c x : word 64 x -> sse3 c = true \/ (isfin F64 x = true -> Rabs (val F64 x) < bpow radix2 (-12) \/ 1 <= Rabs (val F64 x))%R -> rounds_to F64 Ztrunc x (trunc1 c x).
Proof.
  intros Hx C. pose proof nans0 as nn. destruct (@fclass F64 x Hx) as [(N & F) | [(N & I' & F) | (N & I' & F)]]; unfold rounds_to; rewrite (@isnan_spec F64 x Hx); cbn [fw] in *; rewrite N, ?F.
  1,2: assert (Ex : mexp F64 (fmag 64 x) = 2047) by (pose proof F as F'; rewrite (@isfin_spec F64 x Hx) in F'; pose proof (@fin_fields F64 x Hx) as Q; cbn [fw eb] in *; rewrite F' in Q; change (2 ^ 11 - 1) with 2047 in Q; lia).
  1,2: assert (Tx : trunc1 c x = x) by (unfold trunc1; rewrite (trunc1_field Hx), Ex; destruct (sse3 c); apply Z.ldiff_0_r).
  - rewrite Tx. rewrite (@isnan_spec F64 x Hx). exact N.
  - exact Tx.
  - destruct (Z.lt_ge_cases (mexp F64 (fmag 64 x)) 1023) as [L|L].
    + assert (Ts : trunc1 c x = szero F64 (fsign 64 x)).
      { apply trunc1_small; auto. destruct (sse3 c); auto. destruct C as [C|C]; [discriminate|]. destruct (C F) as [C'|C']; [now apply exp_tiny|]. pose proof (exp_small Hx F L). lra. }
      rewrite Ts. destruct (@szero_fin F64 (fsign 64 x)) as (A & B & D). split; auto. split; auto. rewrite B. assert (V := exp_small Hx F L).
      replace (Ztrunc (val F64 x)) with 0; auto. symmetry. apply Rabs_lt_inv in V. destruct (Rle_lt_dec 0 (val F64 x)) as [P|P].
      * rewrite Ztrunc_floor by auto. apply Zfloor_imp. cbn. lra.
      * rewrite Ztrunc_ceil by lra. apply Zceil_imp. cbn. lra.
    + rewrite (trunc1_big nn c Hx L N). destruct (@modfW_big nn F64 x Hx F) as (Fy & Fi & Sy & Si & [n Vi] & By & E). { cbn [eb]. change (2 ^ (11 - 1) - 1) with 1023. exact L. }
      set (i := snd (modfW nn x)) in *. set (y := fst (modfW nn x)) in *. split; auto. split; auto. rewrite Vi. f_equal. symmetry. rewrite Vi in E.
      assert (Wy : word 64 y). { unfold y, modfW. cbv zeta. cbn [fst fw].
        assert (W0 := @word_zero F64 (fsign 64 x)). unfold szero in W0. cbn [fw] in W0.
        repeat match goal with |- context [if ?b then _ else _] => destruct b end; auto; apply (@fsub_word nn F64). }
      assert (Vy := @val_sgnr F64 y Wy Fy). assert (Vx := @val_sgnr F64 x Hx F). rewrite Sy in Vy. cbn [fw] in *. pose proof (mval_nonneg (f := F64) (fmag 64 y)). pose proof (mval_nonneg (f := F64) (fmag 64 x)).
      apply (@int_frac _ n (val F64 y)); auto.
      * intros P. destruct (fsign 64 x); cbn [sgnr] in *; [|lra]. assert (Z0 : val F64 x = 0%R) by lra. rewrite Z0 in E.
        assert (n = 0). { apply Rabs_lt_inv in By. assert (-1 < n < 1); [|lia]. split; apply lt_IZR; cbn; lra. } subst n. lra.
      * intros P. destruct (fsign 64 x); cbn [sgnr] in *; [lra|]. assert (Z0 : val F64 x = 0%R) by lra. rewrite Z0 in E.
        assert (n = 0). { apply Rabs_lt_inv in By. assert (-1 < n < 1); [|lia]. split; apply lt_IZR; cbn; lra. } subst n. lra.
Qed.
