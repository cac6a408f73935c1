(** What the lane functions of hypot compute: special values (float and double). *)
From Coq Require Import ZifyBool ZifyNat Reals Lra.
From Flocq Require Import Core IEEE754.BinarySingleNaN IEEE754.Binary.
From Verif Require Import Base Cxx Spec X86Vec X86 X86Lemmas X86Proofs X86Ops X86Shift Fp FpLemmas FpOps FKern FMath FMathProofs FLane FManip FManipLanes FArith FCvt Hypot PropArith HypotProofs.
Set Implicit Arguments.
Open Scope Z_scope.

Lemma zero_pos g : pos g 0. Proof. split; [destruct g; unfold word; cbn; lia|]. destruct g; split; reflexivity. Qed.
Lemma inf_nz g : fmag (fw g) (infs g false) <> 0. Proof. rewrite fmag_inf. destruct g; discriminate. Qed.
Section Mag.
Context {f : fmt}.
Local Notation W := (fw f).
Lemma mag_word a : word W (fmag W a). Proof. unfold word. pose proof (fmag_range (f := f) a) as R. assert (2 ^ W = 2 * 2 ^ (W - 1)) by (destruct f; reflexivity). lia. Qed.
Lemma mag_sign a : fsign W (fmag W a) = false. Proof. pose proof (fmag_range (f := f) a) as R. unfold fsign. lia. Qed.
Lemma mag_mag a : fmag W (fmag W a) = fmag W a. Proof. pose proof (fmag_range (f := f) a) as R. unfold fmag at 1. apply Z.mod_small. exact R. Qed.
Lemma mag_nan a : fnan W (fmag W a) = fnan W a. Proof. unfold fnan. now rewrite mag_mag. Qed.
Lemma mag_pos a : fnan W a = false -> pos f (fmag W a).
Proof. intros N. split; [apply mag_word|]. split; [apply mag_sign|]. now rewrite mag_nan. Qed.
Lemma flt_mag a b : fnan W a = false -> fnan W b = false -> flt W (fmag W a) (fmag W b) = (fmag W a <? fmag W b).
Proof. intros Na Nb. unfold flt. rewrite !mag_nan, Na, Nb. cbn [negb andb]. unfold fkey. rewrite !mag_sign, !mag_mag. reflexivity. Qed.
Lemma flt_mag_nan a b : fnan W a = true \/ fnan W b = true -> flt W (fmag W a) (fmag W b) = false.
Proof. intros H. unfold flt. rewrite !mag_nan. destruct H as [-> | ->]; cbn; [|rewrite andb_false_r]; reflexivity. Qed.
Lemma pos_mag x : pos f x -> fmag W x = x.
Proof. intros (Hx & S & _). destruct (word_split Hx) as [_ E]. rewrite S in E. lia. Qed.
End Mag.

Section Any.
Context {X : xty} (HX : xty_ok X) (HF : is_int (xT X) = false) (nn : nans).
Local Notation w := (xw X).
Local Notation f := (xf X).
Lemma hia_max a b : fnan w a = false -> fnan w b = false -> hia (X := X) a b = Z.max (fmag w a) (fmag w b) /\ hib (X := X) a b = Z.min (fmag w a) (fmag w b).
Proof. intros Na Nb. unfold hia, hib. rewrite (xw_fw HX HF) in *. rewrite flt_mag by auto. destruct (Z.ltb_spec (fmag (fw f) a) (fmag (fw f) b)); cbn [negb]; lia. Qed.
Lemma hia_nan a b : fnan w a = true \/ fnan w b = true -> hia (X := X) a b = fmag w a /\ hib (X := X) a b = fmag w b.
Proof. intros H. unfold hia, hib. rewrite (xw_fw HX HF) in *. rewrite flt_mag_nan by auto. auto. Qed.
Lemma hyp_sym fm pn a b : fnan w a = false -> fnan w b = false -> hyp1 (X := X) nn fm pn a b = hyp1 (X := X) nn fm pn b a.
Proof.
  intros Na Nb. destruct (hia_max a b Na Nb) as [E1 E2], (hia_max b a Nb Na) as [E3 E4].
  unfold hyp1, hypf1, hypd1. rewrite E1, E2, E3, E4, (Z.max_comm (fmag w b)), (Z.min_comm (fmag w b)). reflexivity.
Qed.
Lemma hyp_abs fm pn a b : hyp1 (X := X) nn fm pn (fmag w a) (fmag w b) = hyp1 (X := X) nn fm pn a b.
Proof.
  assert (E : hia (X := X) (fmag w a) (fmag w b) = hia (X := X) a b /\ hib (X := X) (fmag w a) (fmag w b) = hib (X := X) a b) by (unfold hia, hib; rewrite (xw_fw HX HF), !mag_mag; auto).
  destruct E as [E1 E2]. unfold hyp1, hypf1, hypd1. rewrite E1, E2. reflexivity.
Qed.
End Any.

Section Float.
Context {X : xty} (HX : xty_ok X) (HF : is_int (xT X) = false) (E4 : esz (xT X) = 4%nat) (nn : nans).
Lemma Ew4 : xw X = 32. Proof. unfold xw, ew. rewrite E4. reflexivity. Qed.
Lemma Ef4 : xf X = F32. Proof. unfold xf, fmt_of. rewrite Ew4. reflexivity. Qed.
Local Notation w := 32.
Local Notation f := F32.
Definition mag_ok (x : Z) : Prop := 0 <= x < 2 ^ 31.
Lemma magok a : mag_ok (fmag w a). Proof. exact (fmag_range (f := F32) a). Qed.
Lemma sgn32 x : 0 <= x < 2 ^ 31 -> sgn 32 x = x. Proof. intros H. unfold sgn. destruct (Z.ltb_spec x (2 ^ (32 - 1))); lia. Qed.
Lemma sgn32_sub x y : mag_ok x -> mag_ok y -> sgn 32 ((x - y) mod 2 ^ 32) = x - y.
Proof. unfold mag_ok, sgn. intros. destruct (Z_le_gt_dec y x). { rewrite Z.mod_small by lia. destruct (Z.ltb_spec (x - y) (2 ^ (32 - 1))); lia. }
  rewrite <- (Z_mod_plus_full (x - y) 1 (2 ^ 32)), Z.mod_small by lia. destruct (Z.ltb_spec (x - y + 1 * 2 ^ 32) (2 ^ (32 - 1))); lia. Qed.
Lemma f_abs_spec ia ib : mag_ok ia -> mag_ok ib -> f_abs (X := X) ia ib = (ib =? 0) || (25 * 2 ^ 23 - 1 <? ia - ib).
Proof. intros. unfold f_abs. rewrite Ew4, sgn32_sub, (@sgn32 (25 * 2 ^ 23 - 1)) by (auto; lia). f_equal. lia. Qed.
Lemma f_big_spec ia : mag_ok ia -> f_big (X := X) ia = (0xbb * 2 ^ 23 <=? ia).
Proof. intros. unfold f_big. rewrite Ew4, !sgn32 by (auto; lia). lia. Qed.
Lemma f_smallm_spec ia ib : mag_ok ia -> mag_ok ib -> f_smallm (X := X) ia ib = (ia <? 0xbb * 2 ^ 23) && (ib <? 0x43 * 2 ^ 23).
Proof. intros. unfold f_smallm. rewrite f_big_spec, Ew4, !sgn32 by (auto; lia). lia. Qed.
Definition hypf (fm pn : bool) (ia ib : Z) : Z :=
  let s := f_abs (X := X) ia ib in
  if pn then if (ib =? finf 32) || ((finf 32 <=? ia) || s) then fadd nn f (if ib =? finf 32 then ib else ia) (if s then ib else 0) else f_c0 (X := X) nn fm ia ib
  else if s then fadd nn f ia ib else f_c0 (X := X) nn fm ia ib.
Lemma hypf_eq fm pn a b : hyp1 (X := X) nn fm pn a b = hypf fm pn (hia (X := X) a b) (hib (X := X) a b).
Proof.
  unfold hyp1. rewrite E4. cbn [Nat.eqb]. unfold hypf1, hypf. rewrite Ef4, Ew4. assert (M : mag_ok (hia (X := X) a b)) by (unfold hia; rewrite Ew4; destruct (negb _); apply magok).
  rewrite (@sgn32 (0xff * 2 ^ 23 - 1)), (sgn32 M) by lia. change (finf 32) with (0xff * 2 ^ 23).
  replace (hia (X := X) a b >? 255 * 2 ^ 23 - 1) with (255 * 2 ^ 23 <=? hia (X := X) a b) by lia. reflexivity.
Qed.

Definition finfs : infs F32 false = finf 32 := eq_refl.
Lemma word32 x : mag_ok x -> word 32 x. Proof. unfold mag_ok, word. lia. Qed.
Lemma dist1_pos fm x y : pos F32 x -> pos F32 y -> pos F32 (dist1 nn fm x y).
Proof.
  intros Px Py. unfold dist1. apply pos_cvt, pos_sqrt. pose proof (pos_cvt nn F64 Px) as Qx. pose proof (pos_cvt nn F64 Py) as Qy. destruct fm; [apply pos_fma|apply pos_add]; auto using pos_sq.
Qed.
Lemma dist1_inf fm x : pos F32 x -> dist1 nn fm x (infs F32 false) = infs F32 false.
Proof.
  intros Px. unfold dist1. rewrite fcvt_inf. rewrite (proj1 (fmul_inf2 nn (pos_inf F64) (inf_nz F64))). pose proof (pos_cvt nn F64 Px) as Qx.
  rewrite ffma_infc, fadd_infr by auto using pos_sq. destruct fm; rewrite fsqrt_inf, fcvt_inf; reflexivity.
Qed.
Lemma dist1_nan fm x y : word 32 x -> word 32 y -> fnan 32 x = true \/ fnan 32 y = true -> fnan 32 (dist1 nn fm x y) = true.
Proof.
  intros Hx Hy H. unfold dist1. set (a := fcvt nn F32 F64 x). set (b := fcvt nn F32 F64 y).
  assert (Wa : word (fw F64) a) by apply fcvt_word. assert (Wb : word (fw F64) b) by apply fcvt_word.
  assert (N : fnan 64 a = true \/ fnan 64 b = true) by (destruct H as [H | H]; [left|right]; unfold a, b; apply (@fcvt_nan nn F32 F64); assumption). clearbody a b.
  assert (Wbb : word (fw F64) (fmul nn F64 b b)) by apply fmul_word. assert (Waa : word (fw F64) (fmul nn F64 a a)) by apply fmul_word.
  change 32 with (fw F32). apply fcvt_nan; [apply fsqrt_word|]. apply fsqrt_neg; [destruct fm; apply enc_word|]. left. destruct fm.
  - apply ffma_nan; auto. destruct N as [N | N]; auto. right. right. apply (@fmul_nan nn F64); auto.
  - apply (@fadd_nan nn F64); auto. destruct N as [N | N]; [left|right]; apply (@fmul_nan nn F64); auto.
Qed.
Definition pow90 (m : Z) : Prop := m = 0x12800000 \/ m = 0x6c800000 \/ m = 0x3f800000.
Lemma pow90_ok m : pow90 m -> pos F32 m /\ isfin F32 m = true /\ fmag 32 m <> 0.
Proof. intros [-> | [-> | ->]]; (split; [split; [unfold word; cbn; lia|split; reflexivity]|split; [reflexivity|discriminate]]). Qed.
Lemma f_mult_90 ia ib : pow90 (f_mult (X := X) ia ib). Proof. unfold f_mult, pow90. destruct (_ || _), (f_big (X := X) ia); auto. Qed.
Lemma f_scale_90 ia ib : pow90 (f_scale (X := X) ia ib). Proof. unfold f_scale, pow90. destruct (_ || _), (f_big (X := X) ia); auto. Qed.
Lemma f_c0_pos fm ia ib : pos f ia -> pos f ib -> pos f (f_c0 (X := X) nn fm ia ib).
Proof.
  intros Pa Pb. unfold f_c0. rewrite Ef4. destruct (pow90_ok (f_scale_90 ia ib)) as (P1 & F1 & M1). destruct (pow90_ok (f_mult_90 ia ib)) as (P2 & F2 & M2).
  refine (proj2 (pos_mul_nz nn _ P1 F1 M1)). apply dist1_pos; destruct (f_abs (X := X) ia ib); auto using zero_pos; [exact (proj1 (pos_mul_nz nn Pb P2 F2 M2))|exact (proj1 (pos_mul_nz nn Pa P2 F2 M2))].
Qed.
Lemma hypf_pos fm pn ia ib : pos f ia -> pos f ib -> pos f (hypf fm pn ia ib).
Proof.
  intros Pa Pb. unfold hypf. destruct pn.
  - destruct (_ || _); [|now apply f_c0_pos]. apply pos_add; [destruct (ib =? finf 32)|destruct (f_abs (X := X) ia ib)]; auto using zero_pos.
  - destruct (f_abs (X := X) ia ib); [now apply pos_add|now apply f_c0_pos].
Qed.
Lemma hypf_inf fm pn ib : pos f ib -> hypf fm pn (finf 32) ib = infs f false.
Proof.
  intros Pb. unfold hypf. destruct pn.
  - replace ((ib =? finf 32) || ((finf 32 <=? finf 32) || f_abs (X := X) (finf 32) ib)) with true by lia. replace (if ib =? finf 32 then ib else finf 32) with (infs F32 false) by (rewrite finfs; destruct (Z.eqb_spec ib (finf 32)); auto).
    assert (P : pos f (if f_abs (X := X) (finf 32) ib then ib else 0)) by (destruct (f_abs _ _); auto using zero_pos). apply fadd_infl; try apply P. now apply pos_neg_inf.
  - destruct (f_abs (X := X) (finf 32) ib) eqn:S. { rewrite <- finfs. apply fadd_infl; try apply Pb. now apply pos_neg_inf. }
    unfold f_c0. rewrite S, Ef4. destruct (pow90_ok (f_scale_90 (finf 32) ib)) as (P1 & F1 & M1). destruct (pow90_ok (f_mult_90 (finf 32) ib)) as (P2 & F2 & M2).
    rewrite <- finfs at 3. rewrite (proj1 (fmul_inf2 nn P2 M2)), dist1_inf; [|exact (proj1 (pos_mul_nz nn Pb P2 F2 M2))]. apply (fmul_inf2 nn P1 M1).
Qed.
Lemma mag_pos32 x : mag_ok x -> x <= finf 32 -> pos f x.
Proof. intros H L. unfold mag_ok in H. split; [exact (word32 H)|]. split; unfold fsign, fnan, fmag; change (fw F32) with 32; [lia|]. rewrite Z.mod_small by (cbn; lia). lia. Qed.
(** hypot(x, 0) = |x| *)
Lemma hypf_zero fm pn ia : pos f ia -> hypf fm pn ia 0 = ia.
Proof.
  intros Pa. unfold hypf. unfold f_abs. cbn [Z.eqb orb]. rewrite !orb_true_r. change (0 =? finf 32) with false. cbn [orb]. destruct pn; apply fadd_0r; exact Pa.
Qed.
(** a NaN operand *)
Lemma f_c0_nan fm ia ib : mag_ok ia -> mag_ok ib -> f_abs (X := X) ia ib = false -> fnan 32 ia = true \/ fnan 32 ib = true -> fnan 32 (f_c0 (X := X) nn fm ia ib) = true.
Proof.
  intros Ma Mb S N. unfold f_c0. rewrite S, Ef4. destruct (pow90_ok (f_scale_90 ia ib)) as (P1 & _). destruct (pow90_ok (f_mult_90 ia ib)) as (P2 & _).
  apply word32 in Ma. apply word32 in Mb. apply (@fmul_nan nn F32); [apply P1|apply fcvt_word|right]. apply dist1_nan; try exact (@fmul_word nn F32 _ _).
  destruct N as [N | N]; [right|left]; (apply (@fmul_nan nn F32); [assumption|apply P2|now left]).
Qed.
Lemma nan32 x : mag_ok x -> fnan 32 x = (finf 32 <? x). Proof. intros [H H']. unfold fnan, fmag. rewrite Z.mod_small by (cbn; lia). reflexivity. Qed.
(** NaN and no infinity: NaN *)
Lemma hypf_nan fm pn ia ib : mag_ok ia -> mag_ok ib -> finf 32 < ia \/ finf 32 < ib -> ia <> finf 32 -> ib <> finf 32 -> fnan 32 (hypf fm pn ia ib) = true.
Proof.
  intros Ma Mb N Ia Ib. pose proof (nan32 Ma) as Na. pose proof (nan32 Mb) as Nb. assert (NN : fnan 32 ia = true \/ fnan 32 ib = true) by lia.
  pose proof (word32 Ma) as Wa. pose proof (word32 Mb) as Wb. pose proof (proj1 (zero_pos F32)) as W0. unfold hypf. replace (ib =? finf 32) with false by lia. cbn [orb].
  destruct (f_abs (X := X) ia ib) eqn:S.
  - rewrite orb_true_r. destruct pn; apply (@fadd_nan nn F32); auto.
  - rewrite orb_false_r. destruct pn; [|now apply f_c0_nan]. destruct (Z.leb_spec (finf 32) ia) as [L|L]; [|now apply f_c0_nan]. apply (@fadd_nan nn F32); auto. left. change (fnan 32 ia = true). rewrite Na. lia.
Qed.
(** an infinity and a NaN, DPM_PROPAGATE_NAN *)
Lemma hypf_inf_nan fm ia ib : mag_ok ia -> mag_ok ib -> (ia = finf 32 /\ finf 32 < ib) \/ (finf 32 < ia /\ ib = finf 32) -> hypf fm true ia ib = infs f false.
Proof.
  intros Ma Mb H. unfold hypf. rewrite (f_abs_spec Ma Mb). unfold mag_ok in *. change (finf 32) with 2139095040 in *.
  destruct H as [[-> H] | [H ->]].
  - replace (ib =? 2139095040) with false by lia. replace (ib =? 0) with false by lia. replace (25 * 2 ^ 23 - 1 <? 2139095040 - ib) with false by lia. cbn [orb]. change (2139095040 <=? 2139095040) with true. cbn [orb].
    change 2139095040 with (infs F32 false). apply fadd_0r. apply pos_inf.
  - rewrite Z.eqb_refl. cbn [orb]. change (2139095040 =? 0) with false. replace (25 * 2 ^ 23 - 1 <? ia - 2139095040) with false by lia. cbn [orb].
    change 2139095040 with (infs F32 false). apply fadd_0r. apply pos_inf.
Qed.
(** without DPM_PROPAGATE_NAN: NaN *)
Lemma hypf_inf_nan0 fm ia ib : mag_ok ia -> mag_ok ib -> finf 32 < ia \/ finf 32 < ib -> fnan 32 (hypf fm false ia ib) = true.
Proof.
  intros Ma Mb N. pose proof (nan32 Ma) as Na. pose proof (nan32 Mb) as Nb. assert (NN : fnan 32 ia = true \/ fnan 32 ib = true) by lia. pose proof (word32 Ma) as Wa. pose proof (word32 Mb) as Wb.
  unfold hypf. destruct (f_abs (X := X) ia ib) eqn:S; [apply (@fadd_nan nn F32); auto|now apply f_c0_nan].
Qed.
End Float.

Section Double.
Context {X : xty} (HX : xty_ok X) (HF : is_int (xT X) = false) (E8 : esz (xT X) = 8%nat) (nn : nans).
Lemma Ew8 : xw X = 64. Proof. unfold xw, ew. rewrite E8. reflexivity. Qed.
Lemma Ef8 : xf X = F64. Proof. unfold xf, fmt_of. rewrite Ew8. reflexivity. Qed.
Local Notation w := 64.
Local Notation f := F64.
Definition mag_okd (x : Z) : Prop := 0 <= x < 2 ^ 63.
Lemma magokd a : mag_okd (fmag w a). Proof. exact (fmag_range (f := F64) a). Qed.
Definition topd (x : Z) : Z := x / 2 ^ 32.
Lemma topd_eq x : 0 <= x -> lshr_bits 32 x = topd x. Proof. intros. unfold lshr_bits, topd. try (rewrite Z.shiftr_div_pow2 by lia). reflexivity. Qed.
Lemma topd_ok x : mag_okd x -> 0 <= topd x < 2 ^ 31.
Proof. unfold mag_okd, topd. intros. split; [apply Z.div_pos; lia|apply Z.div_lt_upper_bound; lia]. Qed.
Lemma gtl_small x y u v : - 2 ^ 31 <= x < 2 ^ 31 -> - 2 ^ 31 <= y < 2 ^ 31 -> u = x mod 2 ^ 64 -> v = y mod 2 ^ 64 -> gtl X u v = (y <? x).
Proof.
  intros Hx Hy -> ->. unfold gtl. rewrite Ew8. assert (M : forall z, (z mod 2 ^ 64) mod 2 ^ 32 = z mod 2 ^ 32).
  { intros z. symmetry. apply Znumtheory.Zmod_div_mod; try lia. exists (2 ^ 32). reflexivity. }
  rewrite !M. destruct (l32 X).
  - assert (Q : forall z, - 2 ^ 31 <= z < 2 ^ 31 -> sgn 32 (z mod 2 ^ 32) = z) by (intros; apply (@sgn_wrap 32); lia). rewrite !Q by auto. lia.
  - assert (Q : forall z, - 2 ^ 31 <= z < 2 ^ 31 -> sgn 64 (z mod 2 ^ 64) = z) by (intros; apply (@sgn_wrap 64); lia). rewrite !Q by auto. lia.
Qed.
Lemma d_abs_spec ia ib : 0 <= ia < 2 ^ 31 -> 0 <= ib < 2 ^ 31 -> d_abs (X := X) ia ib = (ia =? 0) || (65 * 2 ^ 20 - 1 <? ia - ib).
Proof. intros. unfold d_abs. rewrite Ew8. rewrite (@gtl_small (ia - ib) (65 * 2 ^ 20 - 1)); try lia; try reflexivity. Qed.
Lemma d_big_spec ia : 0 <= ia < 2 ^ 31 -> d_big (X := X) ia = (0x5fd * 2 ^ 20 <=? ia).
Proof. intros. unfold d_big. rewrite (@gtl_small ia (0x5fd * 2 ^ 20 - 1)); try lia; try reflexivity. Qed.
Lemma d_smallm_spec ia ib : 0 <= ia < 2 ^ 31 -> 0 <= ib < 2 ^ 31 -> d_smallm (X := X) ia ib = (ia <? 0x5fd * 2 ^ 20) && (ib <? 0x23d * 2 ^ 20).
Proof. intros. unfold d_smallm. rewrite d_big_spec by auto. rewrite (@gtl_small (0x23d * 2 ^ 20) ib); try lia; try reflexivity. Qed.
Definition hypd (fm pn : bool) (a b : Z) : Z :=
  let s := d_abs (X := X) (topd a) (topd b) in
  if pn then if (topd b =? 0x7ff00000) || ((0x7ff00000 <=? topd a) || s) then fadd nn f (if topd b =? 0x7ff00000 then b else a) (if s then b else 0) else d_c0 (X := X) nn fm a b
  else if s then fadd nn f a b else d_c0 (X := X) nn fm a b.
Lemma hypd_eq fm pn a b : hyp1 (X := X) nn fm pn a b = hypd fm pn (hia (X := X) a b) (hib (X := X) a b).
Proof.
  unfold hyp1. rewrite E8. cbn [Nat.eqb]. unfold hypd1, hypd. rewrite Ef8, Ew8. assert (M : mag_okd (hia (X := X) a b)) by (unfold hia; rewrite Ew8; destruct (negb _); apply magokd).
  assert (M' : mag_okd (hib (X := X) a b)) by (unfold hib; rewrite Ew8; destruct (negb _); apply magokd).
  rewrite (@topd_eq (hia (X := X) a b)), (@topd_eq (hib (X := X) a b)) by (unfold mag_okd in *; lia). pose proof (topd_ok M) as T.
  assert (Q : forall z, 0 <= z < 2 ^ 31 -> sgn 64 z = z) by (intros; unfold sgn; destruct (Z.ltb_spec z (2 ^ (64 - 1))); lia). rewrite !Q by (auto; lia). change (0x7ff * 2 ^ 20) with 0x7ff00000.
  replace (topd (hia (X := X) a b) >? 0x7ff00000 - 1) with (0x7ff00000 <=? topd (hia (X := X) a b)) by lia. reflexivity.
Qed.
Lemma word64 x : mag_okd x -> word 64 x. Proof. unfold mag_okd, word. lia. Qed.
Lemma mag_pos64 x : mag_okd x -> x <= finf 64 -> pos f x.
Proof. intros H Le. unfold mag_okd in H. split; [exact (word64 H)|]. split; unfold fsign, fnan, fmag; change (fw F64) with 64; [lia|]. rewrite Z.mod_small by (cbn; lia). lia. Qed.
Lemma nan64 x : mag_okd x -> fnan 64 x = (finf 64 <? x). Proof. intros [H H']. unfold fnan, fmag. rewrite Z.mod_small by (cbn; lia). reflexivity. Qed.
Lemma top_inf x : topd x = 0x7ff00000 -> finf 64 <= x. Proof. unfold topd. change (finf 64) with 0x7ff0000000000000. intros H. pose proof (Z_div_mod_eq_full x (2 ^ 32)). pose proof (Z.mod_pos_bound x (2 ^ 32) ltac:(lia)). lia. Qed.
Lemma top_ge x : 0x7ff00000 <= topd x <-> finf 64 <= x. Proof. unfold topd. change (finf 64) with 0x7ff0000000000000. pose proof (Z_div_mod_eq_full x (2 ^ 32)). pose proof (Z.mod_pos_bound x (2 ^ 32) ltac:(lia)). lia. Qed.
Definition finfd : infs F64 false = finf 64 := eq_refl.

(** DPM_PROPAGATE_NAN: an infinity and a number *)
Lemma hypd_inf fm b : pos f b -> hypd fm true (finf 64) b = infs f false.
Proof.
  intros Pb. unfold hypd. change (topd (finf 64)) with 0x7ff00000. change (0x7ff00000 <=? 0x7ff00000) with true. cbn [orb]. rewrite orb_true_r.
  assert (E : (if topd b =? 0x7ff00000 then b else finf 64) = infs F64 false). { rewrite finfd. destruct (Z.eqb_spec (topd b) 0x7ff00000) as [T|]; auto. apply top_inf in T.
    pose proof (pos_mag Pb) as M. destruct Pb as (_ & _ & N). unfold fnan in N. rewrite M in N. change (fw F64) with 64 in N. lia. }
  rewrite E. assert (P : pos f (if d_abs (X := X) 0x7ff00000 (topd b) then b else 0)) by (destruct (d_abs _ _); auto using zero_pos). apply fadd_infl; try apply P. now apply pos_neg_inf.
Qed.
(** ... and a NaN *)
Lemma hypd_inf_nan fm a b : mag_okd a -> mag_okd b -> (a = finf 64 /\ finf 64 < b /\ topd b <> 0x7ff00000) \/ (finf 64 < a /\ b = finf 64) -> hypd fm true a b = infs f false.
Proof.
  intros Ma Mb H. unfold hypd. pose proof (topd_ok Ma) as Ta. pose proof (topd_ok Mb) as Tb. rewrite (d_abs_spec Ta Tb). destruct H as [(-> & H & T) | (H & ->)].
  - assert (0x7ff00000 <= topd b) by (apply top_ge; lia). change (topd (finf 64)) with 0x7ff00000 in *. replace (topd b =? 0x7ff00000) with false by lia. change (0x7ff00000 =? 0) with false.
    replace (65 * 2 ^ 20 - 1 <? 0x7ff00000 - topd b) with false by lia. cbn [orb]. change (0x7ff00000 <=? 0x7ff00000) with true. cbn [orb]. rewrite <- finfd. apply fadd_0r. apply pos_inf.
  - assert (0x7ff00000 <= topd a) by (apply top_ge; lia). change (topd (finf 64)) with 0x7ff00000 in *. rewrite Z.eqb_refl. cbn [orb]. replace (topd a =? 0) with false by lia. replace (65 * 2 ^ 20 - 1 <? topd a - 0x7ff00000) with false by lia.
    cbn [orb]. rewrite <- finfd. apply fadd_0r. apply pos_inf.
Qed.
Lemma hypd_inf_nan_bug fm b : mag_okd b -> finf 64 < b -> topd b = 0x7ff00000 -> fnan 64 (hypd fm true (finf 64) b) = true.
Proof.
  intros Mb Hb T. unfold hypd. rewrite T. change (0x7ff00000 =? 0x7ff00000) with true. cbn [orb]. apply (@fadd_nan nn F64); [exact (word64 Mb)| |left; change (fnan 64 b = true); rewrite (nan64 Mb); lia].
  destruct (d_abs _ _); [exact (word64 Mb)|apply zero_pos].
Qed.
(** NaN operands, no infinity *)
Lemma fmadd1_w fm a b c : word (fw f) (fmadd1 (X := X) nn fm a b c). Proof. unfold fmadd1. rewrite Ef8. destruct fm; apply enc_word. Qed.
Lemma fmsub1_w fm a b c : word (fw f) (fmsub1 (X := X) nn fm a b c). Proof. unfold fmsub1. rewrite Ef8. destruct fm; apply enc_word. Qed.
Lemma fmadd1_nan fm a b c : word 64 a -> word 64 b -> word 64 c -> fnan 64 a = true \/ fnan 64 b = true \/ fnan 64 c = true -> fnan 64 (fmadd1 (X := X) nn fm a b c) = true.
Proof.
  intros Ha Hb Hc H. unfold fmadd1. rewrite Ef8. destruct fm; [now apply (@ffma_nan nn F64)|]. apply (@fadd_nan nn F64); auto. exact (@fmul_word nn F64 _ _). destruct H as [H | [H | H]]; auto; left; apply (@fmul_nan nn F64); auto.
Qed.
Lemma split_w fm x : word (fw f) (split_l (X := X) nn fm x). Proof. unfold split_l. apply fmadd1_w. Qed.
Lemma split_nan fm x : word 64 x -> fnan 64 x = true -> fnan 64 (split_l (X := X) nn fm x) = true.
Proof.
  intros Hx N. unfold split_l. rewrite Ef8. set (xh := fadd _ _ (fsub _ _ _ _) _). set (m := fmul nn F64 x 0x41a0000002000000) in *. assert (Wm : word 64 m) by apply (@fmul_word nn F64).
  assert (Ws : word 64 (fsub nn F64 x m)) by apply (@fsub_word nn F64). assert (Nh : fnan 64 xh = true). { unfold xh. apply (@fadd_nan nn F64); auto. left. apply (@fsub_nan nn F64); auto. }
  assert (Wh : word 64 xh) by apply (@fadd_word nn F64). assert (Nl : fnan 64 (fsub nn F64 x xh) = true) by (apply (@fsub_nan nn F64); auto).
  apply fmadd1_nan; auto; try apply (@fsub_word nn F64). apply fmadd1_w.
Qed.
Definition pow700 (m : Z) : Prop := m = 0x1430000000000000 \/ m = 0x6bb0000000000000 \/ m = 0x3ff0000000000000.
Lemma pow700_ok m : pow700 m -> pos F64 m /\ isfin F64 m = true /\ fmag 64 m <> 0.
Proof. intros [-> | [-> | ->]]; (split; [split; [unfold word; cbn; lia|split; reflexivity]|split; [reflexivity|discriminate]]). Qed.
Lemma d_mult_700 ia ib : pow700 (d_mult (X := X) ia ib). Proof. unfold d_mult, pow700. destruct (_ || _), (d_big (X := X) ia); auto. Qed.
Lemma d_scale_700 ia ib : pow700 (d_scale (X := X) ia ib). Proof. unfold d_scale, pow700. destruct (_ || _), (d_big (X := X) ia); auto. Qed.
Lemma d_c0_nan0 fm a b : d_abs (X := X) (lshr_bits 32 a) (lshr_bits 32 b) = false ->
  let x := fmul nn F64 a (d_mult (X := X) (lshr_bits 32 a) (lshr_bits 32 b)) in let y := fmul nn F64 b (d_mult (X := X) (lshr_bits 32 a) (lshr_bits 32 b)) in
  fnan 64 (split_l (X := X) nn fm x) = true \/ fnan 64 (split_l (X := X) nn fm y) = true -> fnan 64 (d_c0 (X := X) nn fm a b) = true.
Proof.
  intros S x y N. unfold d_c0. rewrite S, Ef8. fold x. fold y. destruct (pow700_ok (d_scale_700 (lshr_bits 32 a) (lshr_bits 32 b))) as (P1 & _).
  assert (Wx : word 64 (split_l (X := X) nn fm x)) by apply split_w. assert (Wy : word 64 (split_l (X := X) nn fm y)) by apply split_w.
  assert (W1 : word 64 (fadd nn F64 (split_l (X := X) nn fm y) (split_l (X := X) nn fm x))) by apply (@fadd_word nn F64).
  assert (W2 : word 64 (fadd nn F64 (fmul nn F64 y y) (fmul nn F64 x x))) by apply (@fadd_word nn F64).
  apply (@fmul_nan nn F64); [apply P1|apply fsqrt_word|right]. apply fsqrt_neg; [apply (@fadd_word nn F64)|]. left. apply (@fadd_nan nn F64); auto. left. apply (@fadd_nan nn F64); auto. tauto.
Qed.
Lemma d_c0_nan fm a b : mag_okd a -> mag_okd b -> d_abs (X := X) (topd a) (topd b) = false -> fnan 64 a = true \/ fnan 64 b = true -> fnan 64 (d_c0 (X := X) nn fm a b) = true.
Proof.
  intros Ma Mb S N. rewrite <- (@topd_eq a), <- (@topd_eq b) in S by (unfold mag_okd in *; lia). apply d_c0_nan0; auto. destruct (pow700_ok (d_mult_700 (lshr_bits 32 a) (lshr_bits 32 b))) as (P2 & _).
  apply word64 in Ma. apply word64 in Mb. destruct N as [N | N]; [left|right]; (apply split_nan; [apply (@fmul_word nn F64)|]; apply (@fmul_nan nn F64); [assumption|apply P2|now left]).
Qed.
Lemma hypd_nan fm pn a b : mag_okd a -> mag_okd b -> finf 64 < a \/ finf 64 < b -> a <> finf 64 -> b <> finf 64 -> fnan 64 (hypd fm pn a b) = true.
Proof.
  intros Ma Mb N Ia Ib. pose proof (nan64 Ma) as Na. pose proof (nan64 Mb) as Nb. assert (NN : fnan 64 a = true \/ fnan 64 b = true) by lia.
  pose proof (word64 Ma) as Wa. pose proof (word64 Mb) as Wb. pose proof (proj1 (zero_pos F64)) as W0. unfold hypd.
  destruct (d_abs (X := X) (topd a) (topd b)) eqn:S.
  - rewrite !orb_true_r. destruct pn; [|apply (@fadd_nan nn F64); auto]. destruct (Z.eqb_spec (topd b) 0x7ff00000) as [T|T]; apply (@fadd_nan nn F64); auto.
    apply top_inf in T. left. change (fnan 64 b = true). rewrite Nb. lia.
  - rewrite orb_false_r. destruct pn; [|now apply d_c0_nan]. destruct (Z.eqb_spec (topd b) 0x7ff00000) as [T|T]; cbn [orb].
    + apply (@fadd_nan nn F64); auto. apply top_inf in T. left. change (fnan 64 b = true). rewrite Nb. lia.
    + destruct (Z.leb_spec 0x7ff00000 (topd a)) as [L|L]; [|now apply d_c0_nan]. apply (@fadd_nan nn F64); auto. left. change (fnan 64 a = true). rewrite Na. apply (proj1 (top_ge a)) in L. lia.
Qed.
(** without DPM_PROPAGATE_NAN *)
Lemma hypd_inf0 fm b : pos f b -> topd b <= 0x7ff00000 - 65 * 2 ^ 20 -> hypd fm false (finf 64) b = infs f false.
Proof.
  intros Pb T. unfold hypd. pose proof (pos_mag Pb) as M. assert (Mb : mag_okd b) by (rewrite <- M; apply magokd). pose proof (topd_ok Mb). rewrite d_abs_spec by (auto; change (topd (finf 64)) with 0x7ff00000; lia).
  change (topd (finf 64)) with 0x7ff00000. replace (65 * 2 ^ 20 - 1 <? 0x7ff00000 - topd b) with true by lia. rewrite orb_true_r. rewrite <- finfd. apply fadd_infl; try apply Pb. now apply pos_neg_inf.
Qed.
Lemma fsub_inf_nan : fnan 64 (fsub nn F64 (infs F64 false) (infs F64 false)) = true.
Proof.
  unfold fsub. change 64 with (fw F64). rewrite fnan_enc, dec_infs. unfold Bminus. match goal with |- context [n2 nn Osub F64 ?a ?b] => destruct (n2 nn Osub F64 a b) as [y Hy] end. destruct y; try discriminate Hy. reflexivity.
Qed.
Lemma hypd_inf0_bug fm b : pos f b -> 0x7ff00000 - 65 * 2 ^ 20 < topd b -> fnan 64 (hypd fm false (finf 64) b) = true.
Proof.
  intros Pb T. unfold hypd. pose proof (pos_mag Pb) as M. assert (Mb : mag_okd b) by (rewrite <- M; apply magokd). pose proof (topd_ok Mb).
  assert (S : d_abs (X := X) (topd (finf 64)) (topd b) = false). { rewrite d_abs_spec by (auto; change (topd (finf 64)) with 0x7ff00000; lia). change (topd (finf 64)) with 0x7ff00000. replace (65 * 2 ^ 20 - 1 <? 0x7ff00000 - topd b) with false by lia. reflexivity. }
  rewrite S. rewrite <- (@topd_eq (finf 64)), <- (@topd_eq b) in S by (unfold mag_okd in *; lia || discriminate). apply d_c0_nan0; auto. left.
  destruct (pow700_ok (d_mult_700 (lshr_bits 32 (finf 64)) (lshr_bits 32 b))) as (P2 & F2 & M2). set (m := d_mult (X := X) _ _) in *. clearbody m.
  rewrite <- finfd. rewrite (proj1 (fmul_inf2 nn P2 M2)). unfold split_l. rewrite Ef8.
  assert (Pc : pos F64 0x41a0000002000000) by (split; [unfold word; cbn; lia|split; reflexivity]). rewrite (proj1 (fmul_inf2 nn Pc ltac:(discriminate))).
  set (i := infs F64 false) in *. assert (Wi : word 64 i) by (unfold i; apply (word_inf (f := F64))). set (xh := fadd nn F64 (fsub nn F64 i i) i).
  assert (Nh : fnan 64 xh = true). { apply (@fadd_nan nn F64); auto. apply (@fsub_word nn F64). left. exact fsub_inf_nan. }
  assert (Wh : word 64 xh) by apply (@fadd_word nn F64). clearbody xh. assert (Nl : fnan 64 (fsub nn F64 i xh) = true) by (apply (@fsub_nan nn F64); auto).
  apply fmadd1_nan; auto; try apply (@fsub_word nn F64). apply fmadd1_w.
Qed.
(** hypot(x, 0) = |x| outside 2^-1042 <= |x| < 2^-958 *)
Lemma hypd_zero fm pn a : pos f a -> topd a = 0 \/ 65 * 2 ^ 20 <= topd a -> hypd fm pn a 0 = a.
Proof.
  intros Pa T. pose proof (pos_mag Pa) as M. assert (Ma : mag_okd a) by (rewrite <- M; apply magokd). pose proof (topd_ok Ma) as Ta. unfold hypd. rewrite d_abs_spec by (auto; cbn; lia). change (topd 0) with 0.
  replace ((topd a =? 0) || (65 * 2 ^ 20 - 1 <? topd a - 0)) with true by lia. rewrite !orb_true_r. change (0 =? 0x7ff00000) with false. cbn [orb]. destruct pn; apply fadd_0r; exact Pa.
Qed.
(** magnitudes below 2^-1042: the sum instead of the root of the sum of squares *)
Lemma hypd_tiny fm pn a b : 0 <= b <= a -> topd a = 0 -> hypd fm pn a b = fadd nn f a b.
Proof.
  intros H T. unfold hypd, d_abs. assert (Tb : topd b = 0). { unfold topd in *. assert (b / 2 ^ 32 <= a / 2 ^ 32) by (apply Z.div_le_mono; lia). assert (0 <= b / 2 ^ 32) by (apply Z.div_pos; lia). lia. }
  rewrite T, Tb. cbn [Z.eqb orb]. change (0 =? 0x7ff00000) with false. cbn [orb]. rewrite orb_true_r. destruct pn; reflexivity.
Qed.
End Double.
Close Scope Z_scope.
