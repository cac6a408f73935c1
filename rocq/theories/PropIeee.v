(** C49 (rcp), C50: the arithmetic operators of float vectors, and of scalar operands, round exactly once, as IEEE 754 asks. *)
From Coq Require Import ZifyBool ZifyNat Reals Lra.
From Flocq Require Import Core IEEE754.BinarySingleNaN IEEE754.Binary.
From Verif Require Import Base Cxx Spec X86Vec X86 X86Lemmas X86Proofs X86Masks X86Ops X86Shift Fp FpLemmas FpOps FKern FMath FMathProofs FLane FManip FManipLanes PropX86 PropFloat PropManip PropCvt PropRound FArith PropArith FCvt Hypot HypotProofs HypotSem PropHypot Generic X86Prog.
Set Implicit Arguments.

(** *** Specification: the four operations of IEEE 754, round to nearest even *)
(** the exact result [r] of two finite operands, rounded once; the sign of an exact zero is [z] *)
Definition ieee_fin (f : fmt) (r : R) (z : bool) (y : Z) : Prop := correct_round f r y /\ (r = 0%R -> y = szero f z).
Definition sg (f : fmt) (x : Z) : bool := fsign (fw f) x.
Definition ieee_add (f : fmt) (x y r : Z) : Prop :=
  (isnanb f x = true \/ isnanb f y = true -> isnanb f r = true) /\
  (isfin f x = true -> isfin f y = true -> ieee_fin f (val f x + val f y) (sg f x && sg f y) r) /\
  (isinf f x -> isfin f y = true -> r = x) /\ (isfin f x = true -> isinf f y -> r = y) /\
  (isinf f x -> isinf f y -> if Bool.eqb (sg f x) (sg f y) then r = x else isnanb f r = true).
Definition ieee_sub (f : fmt) (x y r : Z) : Prop :=
  (isnanb f x = true \/ isnanb f y = true -> isnanb f r = true) /\
  (isfin f x = true -> isfin f y = true -> ieee_fin f (val f x - val f y) (sg f x && negb (sg f y)) r) /\
  (isinf f x -> isfin f y = true -> r = x) /\ (isfin f x = true -> isinf f y -> r = infs f (negb (sg f y))) /\
  (isinf f x -> isinf f y -> if Bool.eqb (sg f x) (sg f y) then isnanb f r = true else r = x).
Definition ieee_mul (f : fmt) (x y r : Z) : Prop :=
  let s := xorb (sg f x) (sg f y) in
  (isnanb f x = true \/ isnanb f y = true -> isnanb f r = true) /\
  (isfin f x = true -> isfin f y = true -> ieee_fin f (val f x * val f y) s r) /\
  (isinf f x -> iszero f y -> isnanb f r = true) /\ (iszero f x -> isinf f y -> isnanb f r = true) /\
  (isinf f x -> isnanb f y = false -> ~ iszero f y -> r = infs f s) /\ (isinf f y -> isnanb f x = false -> ~ iszero f x -> r = infs f s) /\
  (isnanb f r = false -> sg f r = s).                                            (* the sign, also of a product that underflows to zero *)
Definition ieee_div (f : fmt) (x y r : Z) : Prop :=
  let s := xorb (sg f x) (sg f y) in
  (isnanb f x = true \/ isnanb f y = true -> isnanb f r = true) /\
  (isfin f x = true -> isfin f y = true -> ~ iszero f y -> ieee_fin f (val f x / val f y) s r) /\
  (iszero f x -> iszero f y -> isnanb f r = true) /\ (isinf f x -> isinf f y -> isnanb f r = true) /\
  (isnanb f x = false -> ~ iszero f x -> iszero f y -> r = infs f s) /\
  (isinf f x -> isfin f y = true -> r = infs f s) /\ (isfin f x = true -> isinf f y -> r = szero f s) /\
  (isnanb f r = false -> sg f r = s).

(** *** Proofs *)
Section P.
Context (nn : nans) {f : fmt}.
Local Notation W := (fw f).
Lemma dec_zero_iff x : word W x -> (iszero f x <-> exists s, dec f x = B754_zero _ _ s).
Proof.
  intros Hx. split.
  - intros [-> | ->]; eexists; apply dec_szero.
  - intros [s E]. assert (x = enc f (dec f x)) as -> by now rewrite enc_dec. rewrite E, enc_zero. destruct s; [right|left]; reflexivity.
Qed.
Lemma dec_inf_iff x : word W x -> (isinf f x <-> exists s, dec f x = B754_infinity _ _ s).
Proof.
  intros Hx. split.
  - intros [-> | ->]; eexists; apply dec_infs.
  - intros [s E]. assert (x = enc f (dec f x)) as -> by now rewrite enc_dec. rewrite E, enc_inf. destruct s; [right|left]; reflexivity.
Qed.
Lemma sg_dec x : word W x -> sg f x = Bsign _ _ (dec f x).
Proof. intros Hx. unfold sg. now rewrite sign_spec. Qed.
Lemma nan_enc (y : bfl f) : is_nan _ _ y = true -> isnanb f (enc f y) = true.
Proof. intros H. unfold isnanb. now rewrite dec_enc. Qed.
(** a zero of known sign *)
Lemma zero_of y s : word W y -> isfin f y = true -> val f y = 0%R -> fsign W y = s -> y = szero f s.
Proof. intros Hy F V S. apply (@bits_inj f); auto. apply word_zero. unfold isfin. now rewrite dec_szero. unfold val at 2. now rewrite dec_szero. rewrite S. destruct f, s; reflexivity. Qed.
Lemma bmax_pos : (0 < bpow radix2 (emax f))%R. Proof. apply bpow_gt_0. Qed.
Lemma rnd_neg r : (bpow radix2 (emax f) <= Rabs (rnd f r))%R -> forall s : bool, (if s then (r <= 0)%R else (0 <= r)%R) -> Rlt_bool r 0 = s.
Proof.
  intros H s Hs. assert (r <> 0%R). { intros ->. rewrite rnd_0, Rabs_R0 in H. pose proof bmax_pos. lra. }
  destruct s; [apply Rlt_bool_true|apply Rlt_bool_false]; lra.
Qed.
Lemma sign_val x : word W x -> isfin f x = true -> if fsign W x then (val f x <= 0)%R else (0 <= val f x)%R.
Proof.
  intros Hx Fx. rewrite (val_mag Hx Fx). assert (0 <= mval f (fmag W x))%R. { pose proof (fmag_range (f := f) x) as R. rewrite <- (@mval_0 f). destruct (Z.eq_dec (fmag W x) 0) as [-> | N]; [lra|]. left. apply mval_lt; lia. }
  destruct (fsign W x); lra.
Qed.
Ltac cases Hx Hy := rewrite ?(dec_zero_iff Hx), ?(dec_zero_iff Hy), ?(dec_inf_iff Hx), ?(dec_inf_iff Hy); unfold isfin, isnanb.

Lemma add_ok x y : word W x -> word W y -> ieee_add f x y (fadd nn f x y).
Proof.
  intros Hx Hy. pose proof (@fadd_word nn f x y) as Hr. split; [|split; [|split; [|split]]].
  - rewrite (isnan_spec Hx), (isnan_spec Hy), (isnan_spec Hr). now apply fadd_nan.
  - intros Fx Fy. unfold ieee_fin, correct_round. destruct (Rlt_bool_spec (Rabs (rnd f (val f x + val f y))) (bpow radix2 (emax f))) as [B|B].
    + destruct (@fadd_fin nn f x y Hx Hy Fx Fy B) as (V & F & S). split; [split; assumption|]. intros E. apply zero_of; auto. { rewrite V, E. apply rnd_0. } rewrite S, E. now rewrite Rcompare_Eq.
    + destruct (@fadd_ovf nn f x y Hx Hy Fx Fy B) as (E & S). split. { rewrite E. f_equal. symmetry. apply (rnd_neg _ B). pose proof (sign_val Hx Fx) as P1. pose proof (sign_val Hy Fy) as P2. rewrite <- S in P2. destruct (fsign W x); lra. }
      intros Z. exfalso. rewrite Z, rnd_0, Rabs_R0 in B. pose proof bmax_pos. lra.
  - cases Hx Hy. intros [s Ex] Fy. rewrite <- (@enc_dec f x Hx). unfold fadd. rewrite Ex. rewrite enc_inf, dec_infs. destruct (dec f y); try discriminate; cbn; apply (@enc_inf f).
  - cases Hx Hy. intros Fx [s Ey]. rewrite <- (@enc_dec f y Hy). unfold fadd. rewrite Ey. rewrite enc_inf, dec_infs. destruct (dec f x); try discriminate; cbn; apply (@enc_inf f).
  - intros Ix Iy. unfold sg. assert (Q : forall s t, if Bool.eqb s t then fadd nn f (infs f s) (infs f t) = infs f s else isnanb f (fadd nn f (infs f s) (infs f t)) = true).
    { intros s t. unfold fadd, isnanb. rewrite dec_enc, !dec_infs. unfold Bplus. destruct (n2 nn Oadd f _ _) as [z Hz]. destruct s, t; cbn; try apply (@enc_inf f); destruct z; try discriminate; reflexivity. }
    destruct Ix as [-> | ->], Iy as [-> | ->]; rewrite !fsign_inf; apply Q.
Qed.
Lemma sub_ok x y : word W x -> word W y -> ieee_sub f x y (fsub nn f x y).
Proof.
  intros Hx Hy. pose proof (@fsub_word nn f x y) as Hr. split; [|split; [|split; [|split]]].
  - rewrite (isnan_spec Hx), (isnan_spec Hy), (isnan_spec Hr). now apply fsub_nan.
  - intros Fx Fy. unfold ieee_fin, correct_round. destruct (Rlt_bool_spec (Rabs (rnd f (val f x - val f y))) (bpow radix2 (emax f))) as [B|B].
    + destruct (@fsub_fin nn f x y Hx Hy Fx Fy B) as (V & F & S). split; [split; assumption|]. intros E. apply zero_of; auto. { rewrite V, E. apply rnd_0. } rewrite S, E. now rewrite Rcompare_Eq.
    + destruct (@fsub_ovf nn f x y Hx Hy Fx Fy B) as (E & S). split. { rewrite E. f_equal. symmetry. apply (rnd_neg _ B). pose proof (sign_val Hx Fx) as P1. pose proof (sign_val Hy Fy) as P2. rewrite S in P1 |- *. destruct (fsign W y); cbn in *; lra. }
      intros Z. exfalso. rewrite Z, rnd_0, Rabs_R0 in B. pose proof bmax_pos. lra.
  - cases Hx Hy. intros [s Ex] Fy. rewrite <- (@enc_dec f x Hx). unfold fsub. rewrite Ex. rewrite enc_inf, dec_infs. destruct (dec f y); try discriminate; cbn; apply (@enc_inf f).
  - rewrite (sg_dec Hy). cases Hx Hy. intros Fx [s Ey]. unfold fsub. rewrite Ey. destruct (dec f x); try discriminate; cbn; apply (@enc_inf f).
  - intros Ix Iy. unfold sg. assert (Q : forall s t, if Bool.eqb s t then isnanb f (fsub nn f (infs f s) (infs f t)) = true else fsub nn f (infs f s) (infs f t) = infs f s).
    { intros s t. unfold fsub, isnanb. rewrite dec_enc, !dec_infs. unfold Bminus. destruct (n2 nn Osub f _ _) as [z Hz]. destruct s, t; cbn; try apply (@enc_inf f); destruct z; try discriminate; reflexivity. }
    destruct Ix as [-> | ->], Iy as [-> | ->]; rewrite !fsign_inf; apply Q.
Qed.
Lemma mul_sign x y : word W x -> word W y -> isnanb f (fmul nn f x y) = false -> sg f (fmul nn f x y) = xorb (sg f x) (sg f y).
Proof.
  intros Hx Hy N. destruct (isfin f x) eqn:Fx, (isfin f y) eqn:Fy.
  1:{ destruct (Rlt_bool_spec (Rabs (rnd f (val f x * val f y))) (bpow radix2 (emax f))) as [B|B].
    - apply (@fmul_fin nn f x y Hx Hy Fx Fy B).
    - rewrite (@fmul_ovf nn f x y Hx Hy B). apply fsign_inf. }
  all: rewrite !sg_dec by (auto; apply enc_word); unfold fmul, isnanb, isfin in *; rewrite dec_enc in *; unfold Bmult in *; destruct (n2 nn Omul f (dec f x) (dec f y)) as [z Hz];
    destruct (dec f x), (dec f y); try discriminate; cbn in *; try reflexivity; destruct z; discriminate.
Qed.
Lemma div_sign x y : word W x -> word W y -> isnanb f (fdiv nn f x y) = false -> sg f (fdiv nn f x y) = xorb (sg f x) (sg f y).
Proof.
  intros Hx Hy N. rewrite !sg_dec by (auto; apply enc_word). unfold fdiv, isnanb in *. rewrite dec_enc in *.
  pose proof (Bdiv_correct _ _ (Hprec f) (Hprec_emax f) (n2 nn Odiv f) mode_NE (dec f x) (dec f y)) as C.
  destruct (dec f x) as [sx|sx|sx plx Px|sx mx ex Px], (dec f y) as [sy|sy|sy ply Py|sy my ey Py]; try (unfold Bdiv in *; destruct (n2 nn Odiv f _ _) as [z Hz]; cbn in *; try reflexivity; destruct z; discriminate).
  specialize (C ltac:(cbn; destruct sy; apply F2R_neq_0; discriminate)). set (B := Bdiv _ _ _ _ _ _ _ _) in *. clearbody B. destruct (Rlt_bool _ _).
  - destruct C as (_ & _ & S). exact (S N).
  - unfold binary_overflow in C. cbn in C. destruct B; try discriminate. injection C as ->. reflexivity.
Qed.
Lemma mul_ok x y : word W x -> word W y -> ieee_mul f x y (fmul nn f x y).
Proof.
  intros Hx Hy. pose proof (@fmul_word nn f x y) as Hr. split; [|split; [|split; [|split; [|split; [|split]]]]].
  - rewrite (isnan_spec Hx), (isnan_spec Hy), (isnan_spec Hr). now apply fmul_nan.
  - intros Fx Fy. unfold ieee_fin, correct_round. destruct (Rlt_bool_spec (Rabs (rnd f (val f x * val f y))) (bpow radix2 (emax f))) as [B|B].
    + destruct (@fmul_fin nn f x y Hx Hy Fx Fy B) as (V & F & S). split; [split; assumption|]. intros E. apply zero_of; auto. rewrite V, E. apply rnd_0.
    + pose proof (@fmul_ovf nn f x y Hx Hy B) as E. split. { rewrite E. f_equal. symmetry. apply (rnd_neg _ B). pose proof (sign_val Hx Fx) as P1. pose proof (sign_val Hy Fy) as P2. destruct (fsign W x), (fsign W y); cbn; nra. }
      intros Z. exfalso. rewrite Z, rnd_0, Rabs_R0 in B. pose proof bmax_pos. lra.
  - cases Hx Hy. intros [s Ex] [t Ey]. unfold fmul. rewrite Ex, Ey. unfold Bmult. destruct (n2 nn Omul f _ _) as [z Hz]. rewrite dec_enc. cbn. destruct z; try discriminate; reflexivity.
  - cases Hx Hy. intros [s Ex] [t Ey]. unfold fmul. rewrite Ex, Ey. unfold Bmult. destruct (n2 nn Omul f _ _) as [z Hz]. rewrite dec_enc. cbn. destruct z; try discriminate; reflexivity.
  - rewrite (sg_dec Hx), (sg_dec Hy). cases Hx Hy. intros [s Ex] N Z. unfold fmul. rewrite Ex. destruct (dec f y) eqn:Ey; try discriminate; [exfalso; apply Z; eauto|..]; cbn; apply (@enc_inf f).
  - rewrite (sg_dec Hx), (sg_dec Hy). cases Hx Hy. intros [s Ey] N Z. unfold fmul. rewrite Ey. destruct (dec f x) eqn:Ex; try discriminate; [exfalso; apply Z; eauto|..]; cbn; apply (@enc_inf f).
  - now apply mul_sign.
Qed.
Lemma fdiv_word x y : word W (fdiv nn f x y). Proof. apply enc_word. Qed.
Lemma val_nz y : word W y -> isfin f y = true -> ~ iszero f y -> val f y <> 0%R.
Proof. intros Hy Fy N V. apply N. apply (iszero_mag Hy). now apply (val_zero f Hy Fy). Qed.
Lemma div_ok x y : word W x -> word W y -> ieee_div f x y (fdiv nn f x y).
Proof.
  intros Hx Hy. pose proof (fdiv_word x y) as Hr. split; [|split; [|split; [|split; [|split; [|split; [|split]]]]]].
  - cases Hx Hy. intros H. unfold fdiv. rewrite dec_enc. unfold Bdiv. destruct (n2 nn Odiv f _ _) as [z Hz].
    destruct H as [H | H]; destruct (dec f x); try discriminate; destruct (dec f y); try discriminate; cbn; destruct z; try discriminate; reflexivity.
  - intros Fx Fy N. pose proof (val_nz Hy Fy N) as V0. unfold ieee_fin, correct_round.
    pose proof (Bdiv_correct _ _ (Hprec f) (Hprec_emax f) (n2 nn Odiv f) mode_NE (dec f x) (dec f y) V0) as C.
    rewrite rnd_mode in C. change (B2R _ _ (dec f x)) with (val f x) in C. change (B2R _ _ (dec f y)) with (val f y) in C.
    destruct (Rlt_bool_spec (Rabs (rnd f (val f x / val f y))) (bpow radix2 (emax f))) as [B|B].
    + destruct C as (V & F & S). rewrite <- val_enc in V. rewrite <- isfin_enc in F. change (isfin f (fdiv nn f x y) = isfin f x) in F. change (val f (fdiv nn f x y) = rnd f (val f x / val f y)) in V. rewrite Fx in F.
      split; [auto|]. intros E. apply zero_of; auto. { rewrite V, E. apply rnd_0. } unfold fdiv. rewrite sign_enc. rewrite !sg_dec by auto. apply S. apply fin_nan in F. unfold isnanb, fdiv in F. now rewrite dec_enc in F.
    + rewrite <- !sg_dec in C by auto. assert (E : fdiv nn f x y = infs f (xorb (sg f x) (sg f y))) by now apply overflow_inf. split.
      * rewrite E. f_equal. symmetry. apply (rnd_neg _ B). pose proof (sign_val Hx Fx) as P1. pose proof (sign_val Hy Fy) as P2. unfold sg, Rdiv. set (p := val f x) in *. set (q := val f y) in *.
        destruct (Rdichotomy _ _ V0) as [Q | Q]; [pose proof (Rinv_lt_0_compat _ Q)|pose proof (Rinv_0_lt_compat _ Q)]; destruct (fsign W x), (fsign W y); cbn; try lra; nra.
      * intros Z. exfalso. rewrite Z, rnd_0, Rabs_R0 in B. pose proof bmax_pos. lra.
  - cases Hx Hy. intros [s Ex] [t Ey]. unfold fdiv. rewrite Ex, Ey. unfold Bdiv. destruct (n2 nn Odiv f _ _) as [z Hz]. rewrite dec_enc. cbn. destruct z; try discriminate; reflexivity.
  - cases Hx Hy. intros [s Ex] [t Ey]. unfold fdiv. rewrite Ex, Ey. unfold Bdiv. destruct (n2 nn Odiv f _ _) as [z Hz]. rewrite dec_enc. cbn. destruct z; try discriminate; reflexivity.
  - rewrite (sg_dec Hx), (sg_dec Hy). cases Hx Hy. intros N Z [s Ey]. unfold fdiv. rewrite Ey. destruct (dec f x) eqn:Ex; try discriminate; [exfalso; apply Z; eauto|..]; cbn; apply (@enc_inf f).
  - rewrite (sg_dec Hx), (sg_dec Hy). cases Hx Hy. intros [s Ex] N. unfold fdiv. rewrite Ex. destruct (dec f y) eqn:Ey; try discriminate; cbn; apply (@enc_inf f).
  - rewrite (sg_dec Hx), (sg_dec Hy). cases Hx Hy. intros N [s Ey]. unfold fdiv. rewrite Ey. destruct (dec f x) eqn:Ex; try discriminate; cbn; apply (@enc_zero f).
  - now apply div_sign.
Qed.
End P.

Lemma ieee_fops nn X : xty_ok X -> is_int (xT X) = false -> fops_ok X (ieee nn).
Proof.
  intros HX HF. assert (E : xw X = fw (fmt_of (xw X))) by exact (xw_fw HX HF). unfold fops_ok. cbn [ieee f_add f_sub f_mul f_div]. set (g := fmt_of (xw X)) in *. rewrite E.
  repeat split; intros; first [apply fadd_word|apply fsub_word|apply fmul_word|apply fdiv_word].
Qed.

(** *** C50 *)
(** a + b, a - b, a * b, a / b of two float or double vectors: every element is the IEEE 754 result, on every build, for every size *)
Theorem C50_vector : forall nn X junk a b, xty_ok X -> is_int (xT X) = false -> shaped X a -> shaped X b ->
  each2 X a b (x_binary X (ieee nn) junk OpAdd a b) (ieee_add (xf X)) /\ each2 X a b (x_binary X (ieee nn) junk OpSub a b) (ieee_sub (xf X)) /\
  each2 X a b (x_binary X (ieee nn) junk OpMul a b) (ieee_mul (xf X)) /\ each2 X a b (x_binary X (ieee nn) junk OpDiv a b) (ieee_div (xf X)).
Proof.
  intros nn X junk a b HX HF Ha Hb. pose proof (@ieee_fops nn X HX HF) as HO. pose proof (xw_fw HX HF) as E. cbn [x_binary]. rewrite HF. repeat split.
  - eapply (map2_each HX Ha Hb); [apply x_add_ok; auto|]. intros x y Hx Hy. unfold lane_add. rewrite HF. cbn [ieee f_add f_sub f_mul f_div]. fold (xf X). rewrite E in Hx, Hy. now apply add_ok.
  - eapply (map2_each HX Ha Hb); [apply x_sub_ok; auto|]. intros x y Hx Hy. unfold lane_sub. rewrite HF. cbn [ieee f_add f_sub f_mul f_div]. fold (xf X). rewrite E in Hx, Hy. now apply sub_ok.
  - eapply (map2_each HX Ha Hb); [apply x_mul_f_ok; auto|]. intros x y Hx Hy. unfold lane_mul. rewrite HF. cbn [ieee f_add f_sub f_mul f_div]. fold (xf X). rewrite E in Hx, Hy. now apply mul_ok.
  - eapply (map2_each HX Ha Hb); [apply (x_div_f_ok HX); auto|]. intros x y Hx Hy. cbn [ieee f_div]. fold (xf X). rewrite E in Hx, Hy. now apply div_ok.
Qed.
Print Assumptions C50_vector.
(** the forms with a scalar right operand *)
Theorem C50_scalar : forall nn X junk a v, xty_ok X -> is_int (xT X) = false -> shaped X a -> word (xw X) v ->
  each1 X a (x_binary_s X (ieee nn) junk OpAdd a v) (fun x => ieee_add (xf X) x v) /\ each1 X a (x_binary_s X (ieee nn) junk OpSub a v) (fun x => ieee_sub (xf X) x v) /\
  each1 X a (x_binary_s X (ieee nn) junk OpMul a v) (fun x => ieee_mul (xf X) x v) /\ each1 X a (x_binary_s X (ieee nn) junk OpDiv a v) (fun x => ieee_div (xf X) x v).
Proof.
  intros nn X junk a v HX HF Ha Hv. pose proof (@ieee_fops nn X HX HF) as HO. pose proof (xw_fw HX HF) as E. cbn [x_binary_s]. rewrite HF. assert (Hv' := Hv). rewrite E in Hv'. repeat split.
  - eapply (map1_each HX Ha); [apply x_add_s_ok; auto|]. intros x Hx. unfold lane_add. rewrite HF. cbn [ieee f_add f_sub f_mul f_div]. fold (xf X). rewrite E in Hx. now apply add_ok.
  - eapply (map1_each HX Ha); [apply x_sub_s_ok; auto|]. intros x Hx. unfold lane_sub. rewrite HF. cbn [ieee f_add f_sub f_mul f_div]. fold (xf X). rewrite E in Hx. now apply sub_ok.
  - eapply (map1_each HX Ha); [apply x_mul_fs_ok; auto|]. intros x Hx. unfold lane_mul. rewrite HF. cbn [ieee f_add f_sub f_mul f_div]. fold (xf X). rewrite E in Hx. now apply mul_ok.
  - eapply (map1_each HX Ha); [apply (x_div_fs_ok HX); auto|]. intros x Hx. cbn [ieee f_div]. fold (xf X). rewrite E in Hx. now apply div_ok.
Qed.
Print Assumptions C50_scalar.
(** 0.1 + 0.2, 1/3, overflow, 1/0 on a float vector of 5 *)
Example C50_case : exists p q, xty_ok f32x5 /\
  x_binary f32x5 (ieee nans0) [] OpAdd [[0x3dcccccd; 0x7f7fffff; 0x80000000; 0xff800000]; [1; 0; 0; 0]]%Z [[0x3e4ccccd; 0x7f7fffff; 0x80000000; 0x3f800000]; [1; 0; 0; 0]]%Z = Ok p /\
  elems f32x5 p = [0x3e99999a; 0x7f800000; 0x80000000; 0xff800000; 2]%Z /\
  x_binary f32x5 (ieee nans0) [] OpDiv [[0x3f800000; 0x3f800000; 0xbf800000; 0x3f800000]; [1; 0x3f800000; 0x3f800000; 0x3f800000]]%Z [[0x40400000; 0; 0; 0xff800000]; [0x40000000; 0x3f800000; 0x3f800000; 0x3f800000]]%Z = Ok q /\
  elems f32x5 q = [0x3eaaaaab; 0x7f800000; 0xff800000; 0x80000000; 0]%Z.
Proof. eexists. eexists. split; [xok|]. vm_compute. repeat split; reflexivity. Qed.

(** *** C49: rcp of doubles is 1/x rounded once (the float version is the approximate instruction, not modelled) *)
Theorem C49_rcp_partial : forall nn X a, xty_ok X -> is_int (xT X) = false -> esz (xT X) = 8 -> shaped X a ->
  each1 X a (x_rcp X nn a) (fun x r => ieee_div F64 0x3ff0000000000000 x r).
Proof.
  intros nn X a HX HF E8 Ha. pose proof (xw_fw HX HF) as E. apply (@k_each X HX (v_rcp X nn) (fun x => fdiv nn (xf X) (fone (xw X)) x)); auto; [intros; now apply l_rcp|]. intros v Hv. rewrite E in Hv. rewrite (Ef8 E8) in *. rewrite (Ew8 E8).
  apply div_ok; auto. split; [discriminate|reflexivity].
Qed.
Print Assumptions C49_rcp_partial.
Example C49_case : x_sqrt (d2 sse2) nans0 [[0x4000000000000000; 0x8000000000000000]]%Z = Ok [[0x3ff6a09e667f3bcd; 0x8000000000000000]]%Z /\
  x_rcp (d2 sse2) nans0 [[0x4008000000000000; 0]]%Z = Ok [[0x3fd5555555555555; 0x7ff0000000000000]]%Z.
Proof. split; vm_compute; reflexivity. Qed.
