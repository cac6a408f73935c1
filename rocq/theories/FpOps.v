(** The arithmetic instructions on bit patterns: Flocq's correctness theorems restated on patterns. *)
From Coq Require Import ZifyBool Reals Lra.
From Flocq Require Import Core IEEE754.BinarySingleNaN IEEE754.Binary IEEE754.Bits.
From Verif Require Import Base Cxx Spec X86Vec Fp FpLemmas.
Set Implicit Arguments.
Open Scope Z_scope.

(** infinity and zero with a sign *)
Definition sbit (f : fmt) (s : bool) : Z := if s then 2 ^ (fw f - 1) else 0.
Definition infs (f : fmt) (s : bool) : Z := sbit f s + finf (fw f).
Definition szero (f : fmt) (s : bool) : Z := sbit f s.

Section F.
Context {nn : nans} {f : fmt}.
Local Notation W := (fw f).
Local Notation M := (mw f).
Local Notation E := (eb f).
Local Notation fexp := (SpecFloat.fexp (prec f) (emax f)).

Lemma enc_inf s : enc f (B754_infinity _ _ s) = infs f s. Proof. destruct f, s; reflexivity. Qed.
Lemma enc_zero s : enc f (B754_zero _ _ s) = szero f s. Proof. destruct f, s; reflexivity. Qed.
Lemma word_inf s : word W (infs f s). Proof. rewrite <- enc_inf. apply enc_word. Qed.
Lemma word_zero s : word W (szero f s). Proof. rewrite <- enc_zero. apply enc_word. Qed.
Lemma dec_infs s : dec f (infs f s) = B754_infinity _ _ s. Proof. rewrite <- enc_inf. apply dec_enc. Qed.
Lemma dec_szero s : dec f (szero f s) = B754_zero _ _ s. Proof. rewrite <- enc_zero. apply dec_enc. Qed.
Lemma fsign_inf s : fsign W (infs f s) = s. Proof. destruct f, s; reflexivity. Qed.
Lemma fmag_inf s : fmag W (infs f s) = finf W. Proof. destruct f, s; reflexivity. Qed.
Lemma inf_bits x : word W x -> fmag W x = finf W -> x = infs f (fsign W x).
Proof. intros Hx H. rewrite <- (enc_dec Hx) at 1. rewrite (dec_inf Hx H). apply enc_inf. Qed.
Lemma zero_bits x : word W x -> fmag W x = 0 -> x = szero f (fsign W x).
Proof. intros Hx H. destruct (word_split Hx) as [_ S]. rewrite S at 1. rewrite H. unfold szero, sbit. lia. Qed.

Lemma sign_enc (y : bfl f) : fsign W (enc f y) = Bsign _ _ y.
Proof. rewrite <- (sign_spec (enc_word y)), dec_enc. reflexivity. Qed.
Lemma val_enc (y : bfl f) : val f (enc f y) = B2R _ _ y. Proof. unfold val. now rewrite dec_enc. Qed.
Lemma isfin_enc (y : bfl f) : isfin f (enc f y) = is_finite _ _ y. Proof. unfold isfin. now rewrite dec_enc. Qed.
Lemma fnan_enc (y : bfl f) : fnan W (enc f y) = is_nan _ _ y.
Proof. rewrite <- (isnan_spec (enc_word y)). unfold isnanb. now rewrite dec_enc. Qed.

Lemma fin_nan x : isfin f x = true -> isnanb f x = false.
Proof. unfold isfin, isnanb. destruct (dec f x); try reflexivity; discriminate. Qed.
Lemma fin_fnan x : word W x -> isfin f x = true -> fnan W x = false.
Proof. intros Hx H. rewrite <- (isnan_spec Hx). now apply fin_nan. Qed.

Lemma fmt_val x : generic_format radix2 fexp (val f x).
Proof. apply generic_format_B2R. Qed.
Lemma rnd_id r : generic_format radix2 fexp r -> rnd f r = r.
Proof. intros H. apply round_generic; [typeclasses eauto | exact H]. Qed.
Lemma val_lt_emax x : (Rabs (val f x) < bpow radix2 (emax f))%R.
Proof. apply abs_B2R_lt_emax. Qed.
Lemma rnd_mode r : round radix2 fexp (round_mode mode_NE) r = rnd f r.
Proof. reflexivity. Qed.

Lemma overflow_inf (y : bfl f) s : B2FF _ _ y = binary_overflow (prec f) (emax f) mode_NE s -> enc f y = infs f s.
Proof.
  intros H. rewrite <- enc_inf. f_equal. apply B2FF_inj. exact H.
Qed.

(** *** Multiplication *)
Lemma fmul_word a b : word W (fmul nn f a b). Proof. apply enc_word. Qed.
Lemma fmul_fin a b : word W a -> word W b -> isfin f a = true -> isfin f b = true ->
  (Rabs (rnd f (val f a * val f b)) < bpow radix2 (emax f))%R ->
  val f (fmul nn f a b) = rnd f (val f a * val f b) /\ isfin f (fmul nn f a b) = true /\
  fsign W (fmul nn f a b) = xorb (fsign W a) (fsign W b).
Proof.
  intros Ha Hb Fa Fb H. unfold fmul. rewrite val_enc, isfin_enc, sign_enc.
  pose proof (Bmult_correct _ _ (Hprec f) (Hprec_emax f) (n2 nn Omul f) mode_NE (dec f a) (dec f b)) as C.
  rewrite rnd_mode in C. change (B2R _ _ (dec f a)) with (val f a) in C. change (B2R _ _ (dec f b)) with (val f b) in C.
  rewrite Rlt_bool_true in C by exact H. destruct C as (C1 & C2 & C3).
  unfold isfin in Fa, Fb. rewrite Fa, Fb in C2. split; [exact C1|]. split; [exact C2|].
  rewrite C3. { now rewrite !sign_spec. } destruct (Bmult _ _ _ _ _ _ _ _); try reflexivity; discriminate.
Qed.
Lemma fmul_ovf a b : word W a -> word W b ->
  (bpow radix2 (emax f) <= Rabs (rnd f (val f a * val f b)))%R ->
  fmul nn f a b = infs f (xorb (fsign W a) (fsign W b)).
Proof.
  intros Ha Hb H. unfold fmul. apply overflow_inf.
  pose proof (Bmult_correct _ _ (Hprec f) (Hprec_emax f) (n2 nn Omul f) mode_NE (dec f a) (dec f b)) as C.
  rewrite rnd_mode in C. change (B2R _ _ (dec f a)) with (val f a) in C. change (B2R _ _ (dec f b)) with (val f b) in C.
  rewrite Rlt_bool_false in C by exact H. now rewrite !sign_spec in C.
Qed.
Lemma nan_is (x : nan_of f) : is_nan _ _ (proj1_sig x) = true. Proof. exact (proj2_sig x). Qed.

Lemma fmul_nan a b : word W a -> word W b -> fnan W a = true \/ fnan W b = true -> fnan W (fmul nn f a b) = true.
Proof.
  intros Ha Hb H. unfold fmul. rewrite fnan_enc. rewrite <- (isnan_spec Ha), <- (isnan_spec Hb) in H. unfold isnanb in H.
  unfold Bmult, lift. destruct (n2 nn Omul f (dec f a) (dec f b)) as [y Hy]. cbn [proj1_sig build_nan].
  destruct H as [H | H]; destruct (dec f a); try discriminate; destruct (dec f b); try discriminate; cbn;
   destruct y; try discriminate; reflexivity.
Qed.

(** *** Addition, subtraction *)
Lemma fadd_word a b : word W (fadd nn f a b). Proof. apply enc_word. Qed.
Lemma fsub_word a b : word W (fsub nn f a b). Proof. apply enc_word. Qed.
Lemma fadd_fin a b : word W a -> word W b -> isfin f a = true -> isfin f b = true ->
  (Rabs (rnd f (val f a + val f b)) < bpow radix2 (emax f))%R ->
  val f (fadd nn f a b) = rnd f (val f a + val f b) /\ isfin f (fadd nn f a b) = true /\
  fsign W (fadd nn f a b) = match Rcompare (val f a + val f b) 0 with
                            | Eq => fsign W a && fsign W b | Lt => true | Gt => false end.
Proof.
  intros Ha Hb Fa Fb H. unfold fadd. rewrite val_enc, isfin_enc, sign_enc.
  pose proof (Bplus_correct _ _ (Hprec f) (Hprec_emax f) (n2 nn Oadd f) mode_NE (dec f a) (dec f b) Fa Fb) as C.
  rewrite rnd_mode in C. change (B2R _ _ (dec f a)) with (val f a) in C. change (B2R _ _ (dec f b)) with (val f b) in C.
  rewrite Rlt_bool_true in C by exact H. destruct C as (C1 & C2 & C3).
  split; [exact C1|]. split; [exact C2|]. rewrite C3. now rewrite !sign_spec.
Qed.
Lemma fadd_ovf a b : word W a -> word W b -> isfin f a = true -> isfin f b = true ->
  (bpow radix2 (emax f) <= Rabs (rnd f (val f a + val f b)))%R ->
  fadd nn f a b = infs f (fsign W a) /\ fsign W a = fsign W b.
Proof.
  intros Ha Hb Fa Fb H. unfold fadd.
  pose proof (Bplus_correct _ _ (Hprec f) (Hprec_emax f) (n2 nn Oadd f) mode_NE (dec f a) (dec f b) Fa Fb) as C.
  rewrite rnd_mode in C. change (B2R _ _ (dec f a)) with (val f a) in C. change (B2R _ _ (dec f b)) with (val f b) in C.
  rewrite Rlt_bool_false in C by exact H. rewrite !sign_spec in C by assumption. split; [|tauto]. now apply overflow_inf.
Qed.
Lemma fsub_fin a b : word W a -> word W b -> isfin f a = true -> isfin f b = true ->
  (Rabs (rnd f (val f a - val f b)) < bpow radix2 (emax f))%R ->
  val f (fsub nn f a b) = rnd f (val f a - val f b) /\ isfin f (fsub nn f a b) = true /\
  fsign W (fsub nn f a b) = match Rcompare (val f a - val f b) 0 with
                            | Eq => fsign W a && negb (fsign W b) | Lt => true | Gt => false end.
Proof.
  intros Ha Hb Fa Fb H. unfold fsub. rewrite val_enc, isfin_enc, sign_enc.
  pose proof (Bminus_correct _ _ (Hprec f) (Hprec_emax f) (n2 nn Osub f) mode_NE (dec f a) (dec f b) Fa Fb) as C.
  rewrite rnd_mode in C. change (B2R _ _ (dec f a)) with (val f a) in C. change (B2R _ _ (dec f b)) with (val f b) in C.
  rewrite Rlt_bool_true in C by exact H. destruct C as (C1 & C2 & C3).
  split; [exact C1|]. split; [exact C2|]. rewrite C3. now rewrite !sign_spec.
Qed.
Lemma fsub_ovf a b : word W a -> word W b -> isfin f a = true -> isfin f b = true ->
  (bpow radix2 (emax f) <= Rabs (rnd f (val f a - val f b)))%R ->
  fsub nn f a b = infs f (fsign W a) /\ fsign W a = negb (fsign W b).
Proof.
  intros Ha Hb Fa Fb H. unfold fsub.
  pose proof (Bminus_correct _ _ (Hprec f) (Hprec_emax f) (n2 nn Osub f) mode_NE (dec f a) (dec f b) Fa Fb) as C.
  rewrite rnd_mode in C. change (B2R _ _ (dec f a)) with (val f a) in C. change (B2R _ _ (dec f b)) with (val f b) in C.
  rewrite Rlt_bool_false in C by exact H. rewrite !sign_spec in C by assumption. split; [|tauto]. now apply overflow_inf.
Qed.
Lemma fadd_nan a b : word W a -> word W b -> fnan W a = true \/ fnan W b = true -> fnan W (fadd nn f a b) = true.
Proof.
  intros Ha Hb H. unfold fadd. rewrite fnan_enc. rewrite <- (isnan_spec Ha), <- (isnan_spec Hb) in H. unfold isnanb in H.
  unfold Bplus, lift. destruct (n2 nn Oadd f (dec f a) (dec f b)) as [y Hy]. cbn [proj1_sig build_nan].
  destruct H as [H | H]; destruct (dec f a); try discriminate; destruct (dec f b); try discriminate; cbn;
   destruct y; try discriminate; reflexivity.
Qed.
Lemma fsub_nan a b : word W a -> word W b -> fnan W a = true \/ fnan W b = true -> fnan W (fsub nn f a b) = true.
Proof.
  intros Ha Hb H. unfold fsub. rewrite fnan_enc. rewrite <- (isnan_spec Ha), <- (isnan_spec Hb) in H. unfold isnanb in H.
  unfold Bminus, lift. destruct (n2 nn Osub f (dec f a) (dec f b)) as [y Hy]. cbn [proj1_sig build_nan].
  destruct H as [H | H]; destruct (dec f a); try discriminate; destruct (dec f b); try discriminate; cbn;
   destruct y; try discriminate; reflexivity.
Qed.

(** *** Fused multiply-add *)
Lemma ffma_word a b c : word W (ffma nn f a b c). Proof. apply enc_word. Qed.
Lemma ffma_fin a b c : word W a -> word W b -> word W c -> isfin f a = true -> isfin f b = true -> isfin f c = true ->
  (Rabs (rnd f (val f a * val f b + val f c)) < bpow radix2 (emax f))%R ->
  val f (ffma nn f a b c) = rnd f (val f a * val f b + val f c) /\ isfin f (ffma nn f a b c) = true.
Proof.
  intros Ha Hb Hc Fa Fb Fc H. unfold ffma. rewrite val_enc, isfin_enc.
  pose proof (Bfma_correct _ _ (Hprec f) (Hprec_emax f) (n3 nn f) mode_NE (dec f a) (dec f b) (dec f c) Fa Fb Fc) as C.
  cbv zeta in C. rewrite rnd_mode in C. fold (val f a) (val f b) (val f c) in C.
  rewrite Rlt_bool_true in C by exact H. tauto.
Qed.
Lemma ffma_ovf a b c : word W a -> word W b -> word W c -> isfin f a = true -> isfin f b = true -> isfin f c = true ->
  (bpow radix2 (emax f) <= Rabs (rnd f (val f a * val f b + val f c)))%R ->
  ffma nn f a b c = infs f (Rlt_bool (val f a * val f b + val f c) 0).
Proof.
  intros Ha Hb Hc Fa Fb Fc H. unfold ffma. apply overflow_inf.
  pose proof (Bfma_correct _ _ (Hprec f) (Hprec_emax f) (n3 nn f) mode_NE (dec f a) (dec f b) (dec f c) Fa Fb Fc) as C.
  cbv zeta in C. rewrite rnd_mode in C. fold (val f a) (val f b) (val f c) in C.
  rewrite Rlt_bool_false in C by exact H. exact C.
Qed.

(** *** Rounding to integral values *)
Lemma fround_word md a : word W (fround nn f md a). Proof. apply enc_word. Qed.
Lemma fround_fin md a : word W a -> isfin f a = true ->
  val f (fround nn f md a) = IZR (round_mode md (val f a)) /\ isfin f (fround nn f md a) = true /\
  fsign W (fround nn f md a) = fsign W a.
Proof.
  intros Ha Fa. unfold fround. rewrite val_enc, isfin_enc, sign_enc.
  destruct (Bnearbyint_correct _ _ (Hprec_emax f) (n1 nn f) md (dec f a)) as (C1 & C2 & C3).
  unfold isfin in Fa. rewrite Fa in C2. split; [|split].
  - rewrite C1. unfold round, scaled_mantissa, cexp, FIX_exp, F2R. cbn [Fnum Fexp bpow Z.opp].
    rewrite !Rmult_1_r. reflexivity.
  - exact C2.
  - rewrite C3, (sign_spec Ha). reflexivity. destruct (Bnearbyint _ _ _ _ _ _); try reflexivity; discriminate.
Qed.
End F.
Close Scope Z_scope.
