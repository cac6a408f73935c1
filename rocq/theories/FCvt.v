(** Square root, conversions between float and double, and the class of non-negative numbers: facts about Fp.v derived from Flocq. *)
From Coq Require Import ZifyBool ZifyNat Reals Lra.
From Flocq Require Import Core IEEE754.BinarySingleNaN IEEE754.Binary.
From Verif Require Import Base Cxx X86Vec X86 Fp FpLemmas FpOps FMathProofs.
Open Scope Z_scope.
Set Implicit Arguments.

Section S.
Context (nn : nans) (f : fmt).
Local Notation W := (fw f).
Lemma fsqrt_word a : word W (fsqrt nn f a). Proof. apply enc_word. Qed.
Lemma fcvt_word g a : word (fw g) (fcvt nn f g a). Proof. apply enc_word. Qed.

(** sqrt of finite non-negative numbers *)
Lemma fsqrt_fin a : word W a -> isfin f a = true -> (0 <= val f a)%R ->
  val f (fsqrt nn f a) = rnd f (sqrt (val f a)) /\ isfin f (fsqrt nn f a) = true /\ fsign W (fsqrt nn f a) = fsign W a.
Proof.
  intros Ha Fa Pa. unfold fsqrt. rewrite val_enc, isfin_enc, sign_enc.
  destruct (Bsqrt_correct _ _ (Hprec f) (Hprec_emax f) (n1 nn f) mode_NE (dec f a)) as (C1 & C2 & C3).
  rewrite rnd_mode in C1. split; [exact C1|].
  assert (E : is_finite _ _ (Bsqrt _ _ (Hprec f) (Hprec_emax f) (n1 nn f) mode_NE (dec f a)) = true). {
    rewrite C2. unfold isfin in Fa. unfold val in Pa. destruct (dec f a) as [ | | | [|] m e Hb]; try reflexivity; try discriminate.
    exfalso. cbn in Pa. assert (Q : (F2R (Float radix2 (Zneg m) e) < 0)%R) by now apply F2R_lt_0. lra. }
  split; [exact E|]. rewrite C3; [now rewrite sign_spec|]. destruct (Bsqrt _ _ _ _ _ _ _); try reflexivity; discriminate.
Qed.
(** sqrt of negative numbers and of NaN *)
Lemma fsqrt_neg a : word W a -> fnan W a = true \/ (fsign W a = true /\ fmag W a <> 0) -> fnan W (fsqrt nn f a) = true.
Proof.
  intros Ha H. unfold fsqrt. rewrite fnan_enc. rewrite <- (isnan_spec Ha) in H. rewrite <- (sign_spec Ha) in H. pose proof (isfin_spec Ha) as Fa. unfold isfin in Fa.
  assert (Z : forall s, dec f a = B754_zero _ _ s -> fmag W a = 0). { intros s E. assert (V : val f a = 0%R) by (unfold val; now rewrite E). assert (Q : isfin f a = true) by (unfold isfin; now rewrite E).
    rewrite (val_key Ha Q) in V. destruct (Z.eq_dec (fmag W a) 0); auto. exfalso. revert V. unfold kval, fkey. pose proof (fmag_range (f := f) a) as R. assert (M : (mval f 0 < mval f (fmag W a))%R) by (apply mval_lt; lia). rewrite mval_0 in M.
    destruct (fsign W a). { destruct (- fmag W a <? 0) eqn:Q2; [|lia]. rewrite Z.opp_involutive. lra. } destruct (fmag W a <? 0) eqn:Q2; [lia|]. lra. }
  unfold isnanb in H. unfold Bsqrt. destruct (n1 nn f (dec f a)) as [y Hy]. destruct (dec f a) as [s | s | s p Hp | s m e Hb]; cbn in H.
  - exfalso. destruct H as [H | [_ H]]; [discriminate|]. now apply H, (Z s).
  - destruct H as [H | [-> _]]; [discriminate|]. cbn. destruct y; try discriminate Hy; reflexivity.
  - cbn. destruct y; try discriminate Hy; reflexivity.
  - destruct H as [H | [-> _]]; [discriminate|]. cbn. destruct y; try discriminate Hy; reflexivity.
Qed.
Lemma fsqrt_inf : fsqrt nn f (infs f false) = infs f false.
Proof. unfold fsqrt. rewrite dec_infs. unfold Bsqrt. destruct (n1 nn f _) as [y Hy]. cbn. apply (@enc_inf f). Qed.

(** conversions *)
Lemma fcvt_fin g a : word W a -> isfin f a = true -> (Rabs (rnd g (val f a)) < bpow radix2 (emax g))%R ->
  val g (fcvt nn f g a) = rnd g (val f a) /\ isfin g (fcvt nn f g a) = true /\ fsign (fw g) (fcvt nn f g a) = fsign W a.
Proof.
  intros Ha Fa B. unfold fcvt. rewrite val_enc, isfin_enc, sign_enc. rewrite <- (sign_spec Ha). unfold isfin in Fa. unfold val in *. destruct (dec f a) as [s | s | s p Hp | s m e Hb]; try discriminate Fa.
  - cbn. split; auto. unfold rnd. symmetry. apply round_0. typeclasses eauto.
  - pose proof (binary_normalize_correct _ _ (Hprec g) (Hprec_emax g) mode_NE (SpecFloat.cond_Zopp s (Zpos m)) e s) as C. rewrite rnd_mode in C.
    change (B2R _ _ (B754_finite _ _ s m e Hb)) with (F2R (Float radix2 (SpecFloat.cond_Zopp s (Zpos m)) e)) in *.
    rewrite Rlt_bool_true in C by exact B. destruct C as (C1 & C2 & C3). split; [exact C1|]. split; [exact C2|]. rewrite C3. cbn [Bsign].
    destruct s; cbn [SpecFloat.cond_Zopp].
    + rewrite Rcompare_Lt; auto. now apply F2R_lt_0.
    + rewrite Rcompare_Gt; auto. now apply F2R_gt_0.
Qed.
Lemma fcvt_ovf g a : word W a -> isfin f a = true -> (bpow radix2 (emax g) <= Rabs (rnd g (val f a)))%R -> fcvt nn f g a = infs g (fsign W a).
Proof.
  intros Ha Fa B. unfold fcvt. rewrite <- (sign_spec Ha). unfold isfin in Fa. unfold val in *. destruct (dec f a) as [s | s | s p Hp | s m e Hb]; try discriminate Fa.
  - exfalso. cbn in B. unfold rnd in B. rewrite round_0, Rabs_R0 in B by typeclasses eauto. pose proof (bpow_gt_0 radix2 (emax g)). lra.
  - apply overflow_inf. pose proof (binary_normalize_correct _ _ (Hprec g) (Hprec_emax g) mode_NE (SpecFloat.cond_Zopp s (Zpos m)) e s) as C. rewrite rnd_mode in C.
    change (B2R _ _ (B754_finite _ _ s m e Hb)) with (F2R (Float radix2 (SpecFloat.cond_Zopp s (Zpos m)) e)) in *.
    rewrite Rlt_bool_false in C by exact B. rewrite C. f_equal. cbn [Bsign]. destruct s; cbn [SpecFloat.cond_Zopp].
    + apply Rlt_bool_true. now apply F2R_lt_0.
    + apply Rlt_bool_false. apply Rlt_le. now apply F2R_gt_0.
Qed.
Lemma fcvt_inf g s : fcvt nn f g (infs f s) = infs g s.
Proof. unfold fcvt. rewrite dec_infs. apply enc_inf. Qed.
Lemma fcvt_nan g a : word W a -> fnan W a = true -> fnan (fw g) (fcvt nn f g a) = true.
Proof.
  intros Ha H. unfold fcvt. rewrite fnan_enc. rewrite <- (isnan_spec Ha) in H. unfold isnanb in H. destruct (nc nn f g (dec f a)) as [y Hy]. destruct (dec f a); try discriminate. exact Hy.
Qed.
(** infinities *)
Lemma fadd_infl s b : word W b -> fnan W b = false -> b <> infs f (negb s) -> fadd nn f (infs f s) b = infs f s.
Proof.
  intros Hb N D. unfold fadd. rewrite dec_infs. rewrite <- (isnan_spec Hb) in N. unfold isnanb in N. unfold Bplus. destruct (n2 nn Oadd f _ (dec f b)) as [y Hy].
  assert (Q : forall s', dec f b = B754_infinity _ _ s' -> b = infs f s'). { intros s' E. rewrite <- enc_inf, <- E. symmetry. now apply enc_dec. }
  destruct (dec f b) as [s' | s' | s' p Hp | s' m e Hx]; try discriminate; cbn; try apply enc_inf.
  specialize (Q s' eq_refl). destruct s, s'; try (exfalso; exact (D Q)); cbn; apply (@enc_inf f).
Qed.
(** Non-negative numbers: sign bit clear, not NaN. *)
Definition pos (x : Z) : Prop := word W x /\ fsign W x = false /\ fnan W x = false.
Lemma pos_cases x : pos x -> x = infs f false \/ (isfin f x = true /\ (0 <= val f x)%R).
Proof.
  intros (Hx & S & N). destruct (fclass Hx) as [[N' _] | [(_ & M & _) | F]]; [congruence| |].
  - left. rewrite <- S. now apply inf_bits.
  - right. destruct F as (_ & _ & V). split; [exact V|]. rewrite (val_mag Hx V), S. apply mval_nonneg.
Qed.
Lemma pos_inf : pos (infs f false).
Proof. split; [apply word_inf|]. split; [apply fsign_inf|]. destruct f; reflexivity. Qed.
Lemma pos_fin x : word W x -> isfin f x = true -> fsign W x = false -> pos x.
Proof. intros Hx F S. split; auto. split; auto. now apply fin_fnan. Qed.
Lemma pos_neg_inf x : pos x -> x <> infs f true.
Proof. intros (_ & S & _) ->. rewrite fsign_inf in S. discriminate. Qed.
Lemma pos_val x : pos x -> isfin f x = true -> (0 <= val f x)%R.
Proof. intros P F. destruct (pos_cases P) as [-> | [_ V]]; auto. exfalso. revert F. clear. destruct f; discriminate. Qed.
Lemma isfin_inf s : isfin f (infs f s) = false. Proof. unfold isfin. now rewrite dec_infs. Qed.

(** infinite results *)
Ltac bits := cbn; (apply (@enc_inf f) || (cbn; apply (@enc_inf f))).
Lemma dec_inf_inv x s : word W x -> dec f x = B754_infinity _ _ s -> x = infs f s.
Proof. intros Hx E. rewrite <- enc_inf, <- E. symmetry. now apply enc_dec. Qed.
Lemma fadd_infr b : pos b -> fadd nn f b (infs f false) = infs f false.
Proof.
  intros (Hb & S & N). unfold fadd. rewrite dec_infs. rewrite <- (isnan_spec Hb) in N. rewrite <- (sign_spec Hb) in S. unfold isnanb in N. unfold Bplus. destruct (n2 nn Oadd f (dec f b) _) as [y Hy].
  destruct (dec f b) as [s' | s' | s' p Hp | s' m e Hx]; try discriminate; try bits. cbn in S. subst s'. bits.
Qed.
Lemma fmul_inf2 b : pos b -> fmag W b <> 0 -> fmul nn f (infs f false) b = infs f false /\ fmul nn f b (infs f false) = infs f false.
Proof.
  intros (Hb & S & N) M. unfold fmul. rewrite dec_infs. rewrite <- (isnan_spec Hb) in N. rewrite <- (sign_spec Hb) in S. unfold isnanb in N.
  assert (Z : forall s, dec f b <> B754_zero _ _ s). { intros s E. apply M. rewrite <- (enc_dec Hb), E. clear. destruct f, s; reflexivity. }
  unfold Bmult. destruct (n2 nn Omul f _ (dec f b)) as [y Hy]. destruct (n2 nn Omul f (dec f b) _) as [y' Hy'].
  destruct (dec f b) as [s' | s' | s' p Hp | s' m e Hx]; try discriminate; [exfalso; now apply (Z s')| |]; cbn in S; subst s'; split; bits.
Qed.
Lemma ffma_infc a : pos a -> ffma nn f a a (infs f false) = infs f false.
Proof.
  intros (Ha & S & N). unfold ffma. rewrite dec_infs. rewrite <- (isnan_spec Ha) in N. unfold isnanb in N. unfold Bfma. destruct (n3 nn f (dec f a) (dec f a) _) as [y Hy].
  rewrite <- (sign_spec Ha) in S. destruct (dec f a) as [s' | s' | s' p Hp | s' m e Hx]; try discriminate; cbn in S; subst s'; bits.
Qed.
Lemma ffma_inf2 c : pos c -> ffma nn f (infs f false) (infs f false) c = infs f false.
Proof.
  intros (Hc & S & N). unfold ffma. rewrite dec_infs. rewrite <- (isnan_spec Hc) in N. unfold isnanb in N. unfold Bfma. destruct (n3 nn f _ _ (dec f c)) as [y Hy].
  rewrite <- (sign_spec Hc) in S. destruct (dec f c) as [s' | s' | s' p Hp | s' m e Hx]; try discriminate; cbn in S; subst s'; bits.
Qed.
Lemma ffma_nan a b c : word W a -> word W b -> word W c -> fnan W a = true \/ fnan W b = true \/ fnan W c = true -> fnan W (ffma nn f a b c) = true.
Proof.
  intros Ha Hb Hc H. unfold ffma. rewrite fnan_enc. rewrite <- (isnan_spec Ha), <- (isnan_spec Hb), <- (isnan_spec Hc) in H. unfold isnanb in H. unfold Bfma. destruct (n3 nn f (dec f a) (dec f b) (dec f c)) as [y Hy].
  destruct H as [H | [H | H]]; [destruct (dec f a)|destruct (dec f b)|destruct (dec f c)]; try discriminate H.
  - cbn. destruct y; try discriminate Hy. destruct (dec f b), (dec f c); reflexivity.
  - destruct (dec f a); cbn; destruct y; try discriminate Hy; destruct (dec f c); reflexivity.
  - destruct (dec f a), (dec f b); cbn; destruct y; try discriminate Hy; try reflexivity.
Qed.

(** closure *)
Lemma pos_add a b : pos a -> pos b -> pos (fadd nn f a b).
Proof.
  intros Pa Pb. destruct (pos_cases Pa) as [-> | [Fa Va]]. { rewrite fadd_infl; [apply pos_inf| | |]; try apply Pb. now apply pos_neg_inf. }
  destruct (pos_cases Pb) as [-> | [Fb Vb]]. { rewrite fadd_infr by auto. apply pos_inf. }
  destruct Pa as (Ha & Sa & _), Pb as (Hb & Sb & _). destruct (Rlt_le_dec (Rabs (rnd f (val f a + val f b))) (bpow radix2 (emax f))) as [B|B].
  - destruct (@fadd_fin nn f a b Ha Hb Fa Fb B) as (_ & F & S). apply pos_fin; auto. apply fadd_word. rewrite S, Sa. destruct (Rcompare_spec (val f a + val f b) 0); auto. lra.
  - destruct (@fadd_ovf nn f a b Ha Hb Fa Fb B) as (-> & _). rewrite Sa. apply pos_inf.
Qed.
Lemma pos_mul_fin a b : pos a -> pos b -> isfin f a = true -> isfin f b = true -> pos (fmul nn f a b).
Proof.
  intros Pa Pb Fa Fb. destruct Pa as (Ha & Sa & _), Pb as (Hb & Sb & _). destruct (Rlt_le_dec (Rabs (rnd f (val f a * val f b))) (bpow radix2 (emax f))) as [B|B].
  - destruct (@fmul_fin nn f a b Ha Hb Fa Fb B) as (_ & F & S). apply pos_fin; auto. apply fmul_word. rewrite S, Sa, Sb. reflexivity.
  - rewrite (@fmul_ovf nn f a b Ha Hb B), Sa, Sb. apply pos_inf.
Qed.
Lemma pos_sq a : pos a -> pos (fmul nn f a a).
Proof.
  intros Pa. destruct (pos_cases Pa) as [-> | [Fa _]]; [|now apply pos_mul_fin]. rewrite (proj1 (fmul_inf2 pos_inf ltac:(rewrite fmag_inf; clear; destruct f; discriminate))). apply pos_inf.
Qed.
Lemma pos_mul_nz a b : pos a -> pos b -> isfin f b = true -> fmag W b <> 0 -> pos (fmul nn f a b) /\ pos (fmul nn f b a).
Proof.
  intros Pa Pb Fb Mb. destruct (pos_cases Pa) as [-> | [Fa _]]. { destruct (fmul_inf2 Pb Mb) as [-> ->]. split; apply pos_inf. } split; apply pos_mul_fin; auto.
Qed.
Lemma pos_sqrt a : pos a -> pos (fsqrt nn f a).
Proof.
  intros Pa. destruct (pos_cases Pa) as [-> | [Fa Va]]. { rewrite fsqrt_inf. apply pos_inf. } destruct Pa as (Ha & Sa & _).
  destruct (fsqrt_fin Ha Fa Va) as (_ & F & S). apply pos_fin; auto. apply fsqrt_word. congruence.
Qed.
Lemma pos_fma a c : pos a -> pos c -> pos (ffma nn f a a c).
Proof.
  intros Pa Pc. destruct (pos_cases Pa) as [-> | [Fa Va]]. { rewrite ffma_inf2 by auto. apply pos_inf. } destruct (pos_cases Pc) as [-> | [Fc Vc]]. { rewrite ffma_infc by auto. apply pos_inf. }
  destruct Pa as (Ha & Sa & _), Pc as (Hc & Sc & _). assert (Wr : word W (ffma nn f a a c)) by apply enc_word.
  destruct (Rlt_le_dec (Rabs (rnd f (val f a * val f a + val f c))) (bpow radix2 (emax f))) as [B|B].
  - destruct (@ffma_fin nn f a a c Ha Ha Hc Fa Fa Fc B) as (V & F). split; auto. split; [|now apply fin_fnan]. unfold ffma. rewrite sign_enc.
    pose proof (Bfma_correct _ _ (Hprec f) (Hprec_emax f) (n3 nn f) mode_NE (dec f a) (dec f a) (dec f c) Fa Fa Fc) as C. cbv zeta in C. rewrite rnd_mode in C. fold (val f a) (val f c) in C.
    rewrite Rlt_bool_true in C by exact B. destruct C as (_ & _ & ->). destruct (Rcompare_spec (val f a * val f a + val f c) 0); auto; [nra|]. unfold Bfma_szero, BinarySingleNaN.Bfma_szero. rewrite !Bsign_B2BSN by (now apply fin_nan). rewrite !(sign_spec Ha), (sign_spec Hc), Sa, Sc. reflexivity.
  - rewrite (@ffma_ovf nn f a a c Ha Ha Hc Fa Fa Fc B). rewrite Rlt_bool_false by nra. apply pos_inf.
Qed.
End S.
Section C.
Context (nn : nans).
Lemma pos_cvt f g a : pos f a -> pos g (fcvt nn f g a).
Proof.
  intros Pa. destruct (pos_cases Pa) as [-> | [Fa Va]]. { rewrite fcvt_inf. apply pos_inf. } destruct Pa as (Ha & Sa & _).
  destruct (Rlt_le_dec (Rabs (rnd g (val f a))) (bpow radix2 (emax g))) as [B|B].
  - destruct (@fcvt_fin nn f g a Ha Fa B) as (_ & F & S). apply pos_fin; auto. apply fcvt_word. congruence.
  - rewrite (@fcvt_ovf nn f g a Ha Fa B), Sa. apply pos_inf.
Qed.
(** x + 0 = x *)
Lemma fadd_0r f x : pos f x -> fadd nn f x 0 = x.
Proof.
  intros P. assert (P0 : pos f 0) by (clear; split; [destruct f; unfold word; cbn; lia|]; destruct f; split; reflexivity). destruct (pos_cases P) as [-> | [F V]]. { apply fadd_infl; try apply P0. now apply pos_neg_inf. }
  destruct P as (Hx & S & _). assert (V0 : val f 0 = 0%R) by (clear; destruct f; cbn; ring). assert (F0 : isfin f 0 = true) by (clear; destruct f; reflexivity).
  assert (B : (Rabs (rnd f (val f x + val f 0)) < bpow radix2 (emax f))%R) by (rewrite V0, Rplus_0_r, rnd_id by apply fmt_val; apply val_lt_emax).
  destruct (@fadd_fin nn f x 0 Hx (proj1 P0) F F0 B) as (V' & F' & S'). rewrite V0, Rplus_0_r, rnd_id in V' by apply fmt_val.
  apply (@bits_inj f); auto. apply fadd_word. rewrite S', S. rewrite V0, Rplus_0_r. destruct (Rcompare_spec (val f x) 0); auto. lra.
Qed.
End C.
Close Scope Z_scope.
