(** log10: the decomposition x = 2^y iy and the error of y log10(2) + ln(iy) / ln(10). *)
From Coq Require Import ZifyBool ZifyNat Reals Lra.
From Flocq Require Import Core IEEE754.BinarySingleNaN IEEE754.Binary.
From Verif Require Import Base Cxx Spec X86Vec X86 X86Lemmas X86Proofs X86Ops Fp FpLemmas FpOps FMath FMathProofs FLane FFields FManip FManipLanes FScalbn PropX86 PropFloat PropManip Round RoundProofs RoundSem FArith Cvt CvtProofs PropCvt LogbProofs PropArith FCvt PropHypot PropIeee FRoute FRouteProofs LogTab Log LogProofs PropLog
  FErr IvPoly TrigTab PropTrig PropSin SinPoly LnBound LogRed LogAcc LogNum LogTot LogFin PropLogAcc.
Set Implicit Arguments.
Open Scope Z_scope.

(** *** constants *)
Definition ln10I : Z * Z := iadd (iadd ln2I (iadd ln2I ln2I)) (lnI 60 (5 * 2 ^ 138)).
Lemma ln10_ok : iv ln10I (ln 10).
Proof.
  replace (ln 10) with (ln 2 + (ln 2 + ln 2) + ln (IZR (5 * 2 ^ 138) * UU))%R.
  - apply iadd_ok; [apply iadd_ok; [apply ln2_ok|apply iadd_ok; apply ln2_ok]|]. apply lnI_ok. split; vm_compute; discriminate.
  - assert (E : (IZR (5 * 2 ^ 138) * UU = 5 / 4)%R). { pose proof UU_inv as I. replace (2 ^ 140) with (4 * 2 ^ 138) in I by reflexivity. rewrite mult_IZR in *. lra. }
    rewrite E. rewrite <- !ln_mult by lra. f_equal. field.
Qed.
Lemma ln10_bounds : (2 <= ln 10 <= 334 / 100 * ln 2)%R.
Proof.
  pose proof ln10_ok as [A B]. pose proof ln2_ok as [C _]. pose proof UU_inv as I. pose proof UU_pos as UP. split.
  - eapply Rle_trans; [|exact A]. replace 2%R with (IZR 2 * (IZR (2 ^ 140) * UU))%R by (rewrite I; lra). rewrite <- Rmult_assoc, <- mult_IZR. apply Rmult_le_compat_r; [lra|]. apply IZR_le. vm_compute. discriminate.
  - eapply Rle_trans; [exact B|]. assert (H : (IZR 100 * (IZR (snd ln10I) * UU) <= IZR 334 * (IZR (fst ln2I) * UU))%R). { rewrite <- !Rmult_assoc, <- !mult_IZR. apply Rmult_le_compat_r; [lra|]. apply IZR_le. vm_compute. discriminate. } lra.
Qed.
Local Notation ch f := (c_log10_2h (fw f)).
Local Notation cl f := (c_log10_2l (fw f)).
Local Notation ci f := (c_ivln10 (fw f)).
Definition d10 (f : fmt) : Z := match f with F32 => 2 ^ 112 | F64 => 2 ^ 84 end.
Definition i10 (f : fmt) : Z := match f with F32 => 2 ^ 116 | F64 => 2 ^ 87 end.
Lemma d10_ok f : (Rabs (ln 10 * (val f (ch f) + val f (cl f)) - ln 2) <= IZR (d10 f) * UU)%R.
Proof.
  apply iv_abs with (p := isubc (imul (fst ln10I) (snd ln10I) (iadd (ipt (zc f (ch f))) (ipt (zc f (cl f))))) ln2I); [|destruct f; vm_compute; discriminate|destruct f; vm_compute; discriminate].
  apply isubc_ok; [|apply ln2_ok]. apply imul_ok; [vm_compute; discriminate|apply ln10_ok|]. apply iadd_ok; apply ipt_ok; destruct f; reflexivity.
Qed.
Lemma i10_ok f : (Rabs (ln 10 * val f (ci f) - 1) <= IZR (i10 f) * UU)%R.
Proof.
  apply iv_abs with (p := isubc (imul (fst ln10I) (snd ln10I) (ipt (zc f (ci f)))) (S140, S140)); [|destruct f; vm_compute; discriminate|destruct f; vm_compute; discriminate].
  apply isubc_ok. { apply imul_ok; [vm_compute; discriminate|apply ln10_ok|]. apply ipt_ok; destruct f; reflexivity. }
  pose proof UU_inv as I. fold S140 in I. unfold iv; cbn [fst snd]; lra.
Qed.
(** *** rounding *)
Definition e10 (f : fmt) : Z := AZ false f + SZ false f.
Definition B10 (f : fmt) (ak : Z) : Z * bool :=
  let ml := S140 in let mk := ak * S140 in let e := e10 f in
  let '(ez, mz) := pr (Emul (f := f) 0 (mcst f (ci f)) e ml) (Mmul (f := f) (mcst f (ci f)) ml) in
  let '(et, mt) := pr (Efma (f := f) 0 mk 0 (mcst f (cl f)) ez mz) (Mfma (f := f) mk (mcst f (cl f)) mz) in
  (Efma (f := f) 0 mk 0 (mcst f (ch f)) et mt, over f (cd (mcst f (ci f) * ml)) && ofma (f := f) mk (mcst f (cl f)) mz && ofma (f := f) mk (mcst f (ch f)) mt && apok f (ci f) && apok f (cl f) && apok f (ch f)).
Lemma b10_ok nn X fm L r k yk ak e : let f := xf X in ap f L r (e10 f) S140 -> ap f yk (IZR k) 0 (ak * S140) -> B10 f ak = (e, true) -> exists m,
  ap f (fmadd1 (X := X) nn fm yk (ch f) (fmadd1 (X := X) nn fm yk (cl f) (fmul nn f (ci f) L))) (IZR k * val f (ch f) + (IZR k * val f (cl f) + val f (ci f) * r)) e m.
Proof.
  intros f AL AK. unfold B10. cbv zeta. dpr ez mz. dpr et mt. intros Hq. apply pair_equal_spec in Hq. destruct Hq as [<- O]. rewrite !andb_true_iff in O. destruct O as (((((O1 & O2) & O3) & O4) & O5) & O6).
  assert (Az := ap_mul nn (ap_const f (ci f) O4) AL O1). rewrite Eez, Emz in Az.
  assert (At := ap_fma nn X fm AK (ap_const f (cl f) O5) Az O2). fold f in At. rewrite Eet, Emt in At.
  eexists. exact (ap_fma nn X fm AK (ap_const f (ch f) O6) At O3).
Qed.
Definition A10 (f : fmt) : Z := match f with F32 => 8 * 2 ^ 116 | F64 => 8 * 2 ^ 87 end.
Definition S10 (f : fmt) : Z := match f with F32 => 2 ^ 117 | F64 => 2 ^ 88 end.
Definition tot10 (f : fmt) (ak : Z) : Z := fst (B10 f ak) + (ak * d10 f + i10 f).
Definition chk10 (f : fmt) (lo hi : Z) : bool := let p := B10 f hi in snd p && (fst p + (hi * d10 f + i10 f) <=? A10 f + S10 f * lo).
Lemma tot10_all f : cover (chk10 f) 0 (his 38 0) && (1100 <=? last (his 38 0) (-1)) = true.
Proof. destruct f; vm_compute; reflexivity. Qed.
Lemma tot10_ok f ak : 0 <= ak <= 1100 -> exists hi, ak <= hi /\ snd (B10 f hi) = true /\ tot10 f hi <= A10 f + S10 f * ak.
Proof.
  intros H. pose proof (tot10_all f) as T. apply andb_prop in T. destruct T as [T1 T2]. apply Z.leb_le in T2.
  destruct (@cover_ok _ _ 0 ak T1) as (p & q & B & C). { split; [apply H|]. change (0 - 1) with (-1). lia. }
  unfold chk10 in C. cbv zeta in C. fold (tot10 f q) in C. apply andb_prop in C. destruct C as [C1 C2]. apply Z.leb_le in C2. exists q. split; [lia|]. split; auto.
  assert (0 <= S10 f) by (destruct f; discriminate). nia.
Qed.
(** *** bits *)
Lemma cvt_k2 f k : Z.abs k <= 2000 -> (if fw f =? 32 then fof_int F32 (sgn 32 (k mod 2 ^ fw f)) else fof_int F64 (sgn 32 (lo32 (k mod 2 ^ fw f)))) = fof_int f k.
Proof.
  intros Q. assert (S32 : sgn 32 (k mod 2 ^ 32) = k). { unfold sgn. destruct (Z.ltb_spec (k mod 2 ^ 32) (2 ^ (32 - 1))); pose proof (Z_div_mod_eq_full k (2 ^ 32)); pose proof (Z.mod_pos_bound k (2 ^ 32) eq_refl); lia. }
  destruct f; cbn [fw Z.eqb Pos.eqb]; f_equal; auto. unfold lo32. rewrite <- S32 at 2. f_equal.
  change (2 ^ 64) with (2 ^ 32 * 2 ^ 32). rewrite Z.rem_mul_r by lia. rewrite (Z.mul_comm (2 ^ 32)), Z.mod_add by lia. apply Z.mod_mod. lia.
Qed.
Section B.
Context {X : xty} (HX : xty_ok X) (HF : is_int (xT X) = false) (nn : nans).
Local Notation w := (xw X).
Local Notation f := (xf X).
(** scaling by 2^(m+2) is exact and gives a normal number *)
Lemma scale_up x : word (fw f) x -> isfin f x = true -> (0 < val f x)%R -> (val f x < bpow radix2 (emax f - (mw f + 2)))%R ->
  let y := fmul nn f x (exp_mult (fw f)) in 2 ^ mw f <= y < finf (fw f) /\ mval f y = (val f x * bpow radix2 (mw f + 2))%R.
Proof.
  intros Hx Fx P B y. destruct (@val_exp_mult f) as (We & Fe & _ & Ve).
  assert (Mx : (bpow radix2 (emin f) <= val f x)%R /\ generic_format radix2 (SpecFloat.fexp (prec f) (emax f)) (val f x * bpow radix2 (mw f + 2))).
  { destruct (pos_bits f Hx Fx P) as [Rx Vx]. split.
    - rewrite Vx in *. assert (N : x <> 0). { intros ->. rewrite mval_0 in P. lra. } eapply Rle_trans with (mval f 1); [|apply mval_le; lia]. right. unfold mval. replace (msig f 1) with 1 by (destruct f; reflexivity). replace (mex f 1) with (emin f) by (destruct f; reflexivity). ring.
    - rewrite Vx. unfold mval. rewrite Rmult_assoc, <- bpow_plus. apply fmt_F2R.
      + unfold msig, mman. pose proof (Z.mod_pos_bound x (2 ^ mw f) ltac:(destruct f; reflexivity)) as MB. replace (2 ^ prec f) with (2 * 2 ^ mw f) by (destruct f; reflexivity). destruct (mexp f x =? 0); lia.
      + unfold mex. assert (0 < mw f) by (destruct f; reflexivity). lia. }
  destruct Mx as [Mx G]. assert (Hm : 0 < mw f) by (destruct f; reflexivity).
  assert (R : rnd f (val f x * val f (exp_mult (fw f))) = (val f x * bpow radix2 (mw f + 2))%R). { rewrite Ve. now apply rnd_id. }
  assert (Lt : (Rabs (rnd f (val f x * val f (exp_mult (fw f)))) < bpow radix2 (emax f))%R).
  { rewrite R, Rabs_pos_eq by (apply Rmult_le_pos; [lra|apply bpow_ge_0]). replace (emax f) with (emax f - (mw f + 2) + (mw f + 2)) by lia. rewrite (bpow_plus radix2 (emax f - (mw f + 2))). apply Rmult_lt_compat_r; [apply bpow_gt_0|exact B]. }
  destruct (@fmul_fin nn f x _ Hx We Fx Fe Lt) as (V & F & _). fold y in V, F. rewrite R in V. destruct (@norm_bits f y (@fmul_word nn f x _) F) as [A E].
  { rewrite V. rewrite (bpow_plus radix2 (emin f)). apply Rmult_le_compat; try apply bpow_ge_0; [exact Mx|apply bpow_le; lia]. }
  split; [exact A|]. rewrite <- E. exact V.
Qed.
(** what log10 accepts: every positive float, doubles below 2^970 *)
Definition log10_dom (f : fmt) (v : R) : Prop := match f with F32 => True | F64 => (v < bpow radix2 970)%R end.
Lemma norm10 x : word (fw f) x -> isfin f x = true -> (0 < val f x)%R -> log10_dom f (val f x) -> exists s, (s = 0 \/ s = mw f + 2) /\ k10 (X := X) x = (- s) mod 2 ^ fw f /\
  2 ^ mw f <= ix10 (X := X) nn x < finf (fw f) /\ mval f (ix10 (X := X) nn x) = (val f x * bpow radix2 s)%R.
Proof.
  intros Hx Fx P D. pose proof (w_fw HX HF) as Ew. assert (Em : mant w = mw f) by (rewrite Ew; apply mant_mw). destruct (pos_bits f Hx Fx P) as [Rx Vx].
  unfold k10, ix10. destruct (sub10 (X := X) x) eqn:S.
  - exists (mw f + 2). split; [now right|]. rewrite Em, Ew. split; [f_equal; lia|]. apply scale_up; auto.
    destruct (xT_float HX HF) as [(_ & Ef & Ew') | (_ & Ef & Ew')].
    + unfold sub10 in S. rewrite Ew' in S. cbn [Z.eqb Pos.eqb] in S. assert (Lx : x < 0x800000). { rewrite Ef in Rx. change (finf (fw F32)) with 2139095040 in Rx. unfold sgn in S. destruct (Z.ltb_spec x (2 ^ (32 - 1))); lia. }
      rewrite Ef in *. rewrite Vx. apply Rlt_le_trans with (mval F32 0x800000). { apply mval_lt. lia. } unfold mval. change (msig F32 0x800000) with (Zpower radix2 23). change (mex F32 0x800000) with (-149). rewrite IZR_Zpower, <- bpow_plus by lia. apply bpow_le. cbv. discriminate.
    + rewrite Ef in *. exact D.
  - exists 0. split; [now left|]. split; [rewrite Ew; reflexivity|]. change (bpow radix2 0) with 1%R. rewrite Rmult_1_r. split; [|now symmetry].
    destruct (xT_float HX HF) as [(_ & Ef & Ew') | (_ & Ef & Ew')]; unfold sub10 in S; rewrite Ew' in S; cbn [Z.eqb Pos.eqb] in S; rewrite Ef in *.
    + change (finf (fw F32)) with 2139095040 in *. change (2 ^ mw F32) with 0x800000. unfold sgn in S. destruct (Z.ltb_spec x (2 ^ (32 - 1))); lia.
    + exfalso. change (finf (fw F64)) with (0x7ff0 * 2 ^ 48) in Rx. unfold lshr_bits in S. assert (H : 0 <= x / 2 ^ 48 < 0x7ff0) by (split; [apply Z.div_pos; lia|apply Z.div_lt_upper_bound; lia]). set (q := x / 2 ^ 48) in *. clearbody q. unfold sgn in S. destruct (Z.ltb_spec q (2 ^ (64 - 1))); lia.
Qed.
Lemma split10 x : word (fw f) x -> isfin f x = true -> (0 < val f x)%R -> log10_dom f (val f x) -> exists k,
  let iy := iy10 (X := X) nn x in let y := lcvt (X := X) ((kk10 (X := X) nn x + sk10 (X := X) nn x) mod 2 ^ w) in
  Z.abs k <= 1100 /\ 2 ^ mw f <= iy < finf (fw f) /\ (/ 2 <= mval f iy <= 2)%R /\ val f x = (bpow radix2 k * mval f iy)%R /\ word (fw f) y /\ isfin f y = true /\ val f y = IZR k.
Proof.
  intros Hx Fx P D. pose proof (w_fw HX HF) as Ew. assert (Em : mant w = mw f) by (rewrite Ew; apply mant_mw). destruct (norm10 Hx Fx P D) as (s & Hs & Ek & Ri & Vi). set (ix := ix10 (X := X) nn x) in *.
  set (e := ix / 2 ^ mw f). set (bias := exp_off (fw f)). set (E := e - bias - s). set (sk := if E <? 0 then 1 else 0). assert (Pm : 0 < 2 ^ mw f) by (destruct f; reflexivity).
  assert (Be : bias = emax f - 1) by (unfold bias; destruct f; reflexivity). assert (Fi : finf (fw f) = (2 * emax f - 1) * 2 ^ mw f) by (destruct f; reflexivity).
  assert (Re : 1 <= e < 2 * emax f - 1) by (unfold e; split; [apply Z.div_le_lower_bound; lia|apply Z.div_lt_upper_bound; lia]).
  assert (Hw : emax f <= 1024 /\ 128 <= emax f /\ 0 <= mw f <= 52 /\ 2 * emax f < 2 ^ (fw f - 1) /\ 2 ^ fw f = 2 * 2 ^ (fw f - 1) /\ 2 ^ 20 < 2 ^ (fw f - 1)) by (destruct f; cbv; repeat split; discriminate). destruct Hw as (M1 & M2 & M3 & M4 & M5 & M6).
  assert (RE : -1100 <= E <= 1024) by (unfold E; lia).
  assert (Ekk : kk10 (X := X) nn x = E mod 2 ^ fw f). { unfold kk10. rewrite Ek, Em, Ew. fold ix. unfold lshr_bits. fold e bias. rewrite <- Zplus_mod. f_equal. unfold E. lia. }
  assert (Esk : sk10 (X := X) nn x = sk).
  { unfold sk10. rewrite Ekk, Ew. unfold lshr_bits, sk. destruct (Z.ltb_spec E 0) as [L|L].
    - replace (E mod 2 ^ fw f) with (E + 2 ^ fw f) by (rewrite <- (Z.mod_add _ 1), Z.mul_1_l by lia; symmetry; apply Z.mod_small; lia). symmetry. apply Z.div_unique with (E + 2 ^ (fw f - 1)); lia.
    - rewrite Z.mod_small by lia. apply Z.div_small. lia. }
  assert (Rs : 0 <= sk <= 1 /\ -1100 <= E + sk <= 1024) by (unfold sk; destruct (Z.ltb_spec E 0); lia). destruct Rs as [Rs Rk].
  assert (Eiy : iy10 (X := X) nn x = ix + (bias - sk - e) * 2 ^ mw f).
  { unfold iy10. rewrite Esk, Em, Ew. fold ix bias. unfold shl_bits. rewrite (Z.mod_small (bias - sk)) by lia.
    assert (Pf : 2 ^ fw f = 2 ^ mw f * 2 ^ (fw f - mw f)) by (rewrite <- Z.pow_add_r by (destruct f; cbn; lia); f_equal; lia). assert (Pq : emax f < 2 ^ (fw f - mw f)) by (destruct f; reflexivity).
    rewrite (Z.mod_small ((bias - sk) * 2 ^ mw f)) by (rewrite Pf; clear -Rs Be M1 M2 Pm Pq; split; [apply Z.mul_nonneg_nonneg; lia|rewrite Z.mul_comm; apply Z.mul_lt_mono_pos_l; lia]). replace (2 ^ mw f - 1) with (Z.ones (mw f)) by (rewrite Z.ones_equiv; lia). rewrite Z.land_ones by lia. rewrite (Z.mul_comm (bias - sk)), lor_low by (apply Z.mod_pos_bound; lia).
    pose proof (Z_div_mod_eq_full ix (2 ^ mw f)) as DM. fold e in DM. lia. }
  assert (Riy : (bias - 1) * 2 ^ mw f <= iy10 (X := X) nn x < (bias + 1) * 2 ^ mw f).
  { rewrite Eiy. pose proof (Z_div_mod_eq_full ix (2 ^ mw f)) as DM. fold e in DM. pose proof (Z.mod_pos_bound ix _ Pm) as MB. clear -DM MB Rs Pm. set (q := ix mod 2 ^ mw f) in *. set (p := 2 ^ mw f) in *. clearbody q p. clearbody e sk bias. nia. }
  exists (E + sk). cbv zeta. split; [lia|]. assert (R2 : 2 ^ mw f <= iy10 (X := X) nn x < finf (fw f)). { rewrite Fi. clear -Riy Be M2 Pm. set (p := 2 ^ mw f) in *. clearbody p. nia. } split; [exact R2|]. assert (R0 : 0 <= iy10 (X := X) nn x) by lia. assert (Q1 : 0 <= (bias - 1) * 2 ^ mw f) by (apply Z.mul_nonneg_nonneg; lia). assert (Q2 : 0 <= (bias + 1) * 2 ^ mw f) by (apply Z.mul_nonneg_nonneg; lia). split; [|split].
  - split.
    + replace (/ 2)%R with (mval f ((bias - 1) * 2 ^ mw f)). { apply mval_le; lia. } unfold bias, mval. replace (msig f _) with (Zpower radix2 (mw f)) by (destruct f; reflexivity). replace (mex f _) with (- mw f - 1) by (destruct f; reflexivity). rewrite IZR_Zpower, <- bpow_plus by lia. replace (mw f + (- mw f - 1)) with (-1) by lia. reflexivity.
    + replace 2%R with (mval f ((bias + 1) * 2 ^ mw f)). { apply mval_le; lia. } unfold bias, mval. replace (msig f _) with (Zpower radix2 (mw f)) by (destruct f; reflexivity). replace (mex f _) with (1 - mw f) by (destruct f; reflexivity). rewrite IZR_Zpower, <- bpow_plus by lia. replace (mw f + (1 - mw f)) with 1 by lia. reflexivity.
  - rewrite Eiy, mval_shift, Vi by (rewrite <- ?Eiy; lia). rewrite (Rmult_comm (val f x)), <- !Rmult_assoc, <- !bpow_plus. replace (E + sk + (bias - sk - e) + s) with 0 by (unfold E; lia). change (bpow radix2 0) with 1%R. ring.
  - rewrite Ekk, Esk, Ew. replace ((E mod 2 ^ fw f + sk) mod 2 ^ fw f) with ((E + sk) mod 2 ^ fw f) by (rewrite Zplus_mod_idemp_l; reflexivity). unfold lcvt. rewrite Ew. rewrite cvt_k2 by lia.
    split; [apply enc_word|]. assert (Bk : Z.abs (E + sk) <= 2 ^ prec f) by (assert (2048 < 2 ^ prec f) by (destruct f; reflexivity); clear -H Rk; lia). destruct (@fof_int_ok f (E + sk)) as (_ & F1 & V1 & _). { clear -Rk. destruct f; cbn in *; lia. } split; auto. rewrite V1. now apply rnd_int_exact.
Qed.
End B.
Close Scope Z_scope.
