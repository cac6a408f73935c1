(** C42: exact symmetries of sin, cos, sincos, tan, asin and atan; special values; and where the vector path goes wrong. *)
From Coq Require Import ZifyBool ZifyNat Reals Lra.
From Flocq Require Import Core IEEE754.BinarySingleNaN IEEE754.Binary.
From Verif Require Import Base Cxx Spec X86Vec X86 X86Lemmas X86Proofs X86Masks X86Ops X86Shift Fp FpLemmas FpOps FKern FMath FMathProofs FLane FFields FManip FManipLanes LogbProofs
  PropX86 PropFloat PropManip Cvt CvtProofs PropCvt Round RoundProofs RoundSem PropRound FArith PropArith FCvt Hypot HypotProofs HypotSem PropHypot PropIeee LogTab Log LogProofs PropLog TrigTab Trig TrigProofs.
Set Implicit Arguments.

(** *** Specification *)
(** the bit pattern with the sign bit flipped *)
Definition flip (f : fmt) (x : Z) : Z := Z.lxor x (2 ^ (fw f - 1)).
(** every element of [b] is the negation of the element of [a] *)
Definition opposite (X : xty) (a b : list vec) : Prop :=
  forall i x, nth_error (elems X a) i = Some x -> nth_error (elems X b) i = Some (flip (xf X) x).
(** two results [ra] (from [a]) and [rb], related element by element *)
Definition pairwise (X : xty) (a : list vec) (ra rb : res (list vec)) (P : Z -> Z -> Z -> Prop) : Prop :=
  exists u v, ra = Ok u /\ rb = Ok v /\ shaped X u /\ shaped X v /\
    forall i x, nth_error (elems X a) i = Some x -> exists r s, nth_error (elems X u) i = Some r /\ nth_error (elems X v) i = Some s /\ P x r s.
(** the vector path is taken: |x| <= 2^22 (float), 2^51 (double); with DPM_HANDLE_ERRORS also for infinities *)
Definition vector_path (f : fmt) (he : bool) (x : Z) : Prop :=
  (isfin f x = true /\ (Rabs (val f x) <= bpow radix2 (match f with F32 => 22 | F64 => 51 end))%R) \/ (he = true /\ isinf f x) \/ isnanb f x = true.
(** [s] is the negation of [r], a NaN counting as the negation of a NaN *)
Definition opp_or_nan (f : fmt) (r s : Z) : Prop := if isnanb f r then isnanb f s = true else s = flip f r.

(** *** Proofs *)
Section Flip.
Context {f : fmt} (nn : nans).
Local Notation W := (fw f).
Lemma flip_ok x : word W x -> word W (flip f x) /\ isfin f (flip f x) = isfin f x /\ val f (flip f x) = (- val f x)%R /\ fsign W (flip f x) = negb (fsign W x).
Proof. exact (@fneg_ok f x). Qed.
Lemma flip_mag x : word W x -> fmag W (flip f x) = fmag W x.
Proof.
  intros Hx. assert (E := neg_lane Hx). destruct (flip_ok Hx) as (Wy & _ & _ & Sy). pose proof (fmag_range (f := f) x) as R. fold (flip f x) in E.
  pose proof (word_split Wy) as [Ry Ey]. rewrite Sy in Ey. destruct (negb _); lia.
Qed.
Lemma flip_nan x : word W x -> isnanb f (flip f x) = isnanb f x.
Proof. intros Hx. destruct (flip_ok Hx) as (Wy & _). rewrite (isnan_spec Wy), (isnan_spec Hx). unfold fnan. now rewrite flip_mag. Qed.
Lemma flip_inf x : word W x -> (isinf f (flip f x) <-> isinf f x).
Proof. intros Hx. destruct (flip_ok Hx) as (Wy & _). rewrite (isinf_mag Wy), (isinf_mag Hx), flip_mag; tauto. Qed.
Lemma flip_zero x : word W x -> (iszero f (flip f x) <-> iszero f x).
Proof. intros Hx. destruct (flip_ok Hx) as (Wy & _). rewrite (iszero_mag Wy), (iszero_mag Hx), flip_mag; tauto. Qed.
Lemma flip_infs s : flip f (infs f s) = infs f (negb s). Proof. destruct f, s; reflexivity. Qed.
Lemma flip_szero s : flip f (szero f s) = szero f (negb s). Proof. destruct f, s; reflexivity. Qed.
Lemma class x : word W x -> isnanb f x = true \/ isinf f x \/ iszero f x \/ (isfin f x = true /\ ~ iszero f x).
Proof.
  intros Hx. rewrite (dec_inf_iff Hx), (dec_zero_iff Hx). unfold isnanb, isfin. destruct (dec f x) as [s|s|s pl H|s m e H]; eauto.
  right; right; right. split; auto. intros [t E]. discriminate.
Qed.
Lemma zero_fin x : iszero f x -> isfin f x = true. Proof. intros [-> | ->]; unfold isfin; now rewrite dec_szero. Qed.
Lemma zero_nn x : iszero f x -> isnanb f x = false. Proof. intros [-> | ->]; unfold isnanb; now rewrite dec_szero. Qed.
Lemma inf_nn x : isinf f x -> isnanb f x = false. Proof. intros [-> | ->]; unfold isnanb; now rewrite dec_infs. Qed.
Lemma fin_nn x : isfin f x = true -> isnanb f x = false. Proof. unfold isfin, isnanb. destruct (dec f x); easy. Qed.
Lemma inf_nz x : isinf f x -> ~ iszero f x. Proof. intros [-> | ->] [E|E]; destruct f; discriminate. Qed.
(** a correctly rounded result of -r is the negation of that of r *)
Lemma round_flip r z y y' : word W y -> word W y' -> correct_round f r y -> correct_round f (- r) y' -> r <> 0%R -> sg f y = z -> sg f y' = negb z -> y' = flip f y.
Proof.
  intros Hy Hy' C1 C2 N S1 S2. unfold correct_round in *. rewrite rnd_opp, Rabs_Ropp in C2. destruct (Rlt_bool _ _).
  - destruct C1 as [F1 V1], C2 as [F2 V2]. destruct (flip_ok Hy) as (Wy & Fy & Vy & Sy). apply (@bits_inj f); auto. { congruence. } { rewrite Vy. congruence. }
    rewrite Sy. unfold sg in *. congruence.
  - rewrite C1, C2, flip_infs. f_equal. destruct (Rtotal_order r 0) as [L|[L|L]]; [|contradiction|].
    + rewrite (Rlt_bool_true r), Rlt_bool_false by lra. reflexivity.
    + rewrite (Rlt_bool_false r), Rlt_bool_true by lra. reflexivity.
Qed.
Lemma ieee_flip r z y y' : word W y -> word W y' -> ieee_fin f r z y -> ieee_fin f (- r) (negb z) y' -> sg f y = z -> sg f y' = negb z -> y' = flip f y.
Proof.
  intros Hy Hy' [C1 Z1] [C2 Z2] S1 S2. destruct (Req_dec r 0) as [E|N]. { rewrite (Z1 E), Z2, flip_szero by lra. reflexivity. } eapply round_flip; eauto.
Qed.
Lemma fin_correct r y : isfin f y = true -> correct_round f r y -> isnanb f y = false. Proof. intros H _. now apply fin_nn. Qed.
Lemma correct_nn r y : correct_round f r y -> isnanb f y = false.
Proof. unfold correct_round. destruct (Rlt_bool _ _). { intros [H _]. now apply fin_nn. } intros ->. apply inf_nn. destruct (Rlt_bool r 0); [right|left]; reflexivity. Qed.
Lemma sg_flip x : word W x -> sg f (flip f x) = negb (sg f x). Proof. intros Hx. apply (flip_ok Hx). Qed.
Lemma mul_flip_r x y : word W x -> word W y -> opp_or_nan f (fmul nn f x y) (fmul nn f x (flip f y)).
Proof.
  intros Hx Hy. destruct (flip_ok Hy) as (Wy & Fy & Vy & Sy). pose proof (@fmul_word nn f x y) as W1. pose proof (@fmul_word nn f x (flip f y)) as W2.
  destruct (mul_ok nn Hx Hy) as (A1 & A2 & A3 & A4 & A5 & A6 & A7). destruct (mul_ok nn Hx Wy) as (B1 & B2 & B3 & B4 & B5 & B6 & B7). unfold opp_or_nan.
  rewrite sg_flip in * by auto. replace (xorb (sg f x) (negb (sg f y))) with (negb (xorb (sg f x) (sg f y))) in * by (destruct (sg f x), (sg f y); reflexivity).
  rewrite (flip_nan Hy) in *. rewrite (flip_inf Hy), (flip_zero Hy) in *.
  destruct (class Hx) as [Nx|[Ix|Cx]].
  - rewrite A1 by auto. apply B1; auto.
  - destruct (class Hy) as [Ny|[Iy|[Zy|[Ffy Nzy]]]].
    + rewrite A1 by auto. apply B1; auto.
    + rewrite A5, B5 by (auto using inf_nn, inf_nz). rewrite flip_infs. destruct (isnanb f (infs f (xorb (sg f x) (sg f y)))) eqn:E; auto; unfold isnanb in E; rewrite dec_infs in E; discriminate.
    + rewrite A3 by auto. apply B3; auto.
    + rewrite A5, B5 by (auto using fin_nn). rewrite flip_infs. destruct (isnanb f (infs f (xorb (sg f x) (sg f y)))) eqn:E; auto; unfold isnanb in E; rewrite dec_infs in E; discriminate.
  - assert (Fx : isfin f x = true) by (destruct Cx as [Cx|[Cx _]]; auto using zero_fin).
    destruct (class Hy) as [Ny|[Iy|Cy]].
    + rewrite A1 by auto. apply B1; auto.
    + destruct Cx as [Cx|[_ Cx]].
      * rewrite A4 by auto. apply B4; auto.
      * rewrite A6, B6 by (auto using fin_nn). rewrite flip_infs. destruct (isnanb f (infs f (xorb (sg f x) (sg f y)))) eqn:E; auto; unfold isnanb in E; rewrite dec_infs in E; discriminate.
    + assert (Ffy : isfin f y = true) by (destruct Cy as [Cy|[Cy _]]; auto using zero_fin).
      specialize (A2 Fx Ffy). rewrite Fy, Vy in B2. specialize (B2 Fx Ffy). rewrite Ropp_mult_distr_r_reverse in B2.
      pose proof (correct_nn _ _ (proj1 A2)) as N1. pose proof (correct_nn _ _ (proj1 B2)) as N2. rewrite N1. eapply ieee_flip; eauto.
Qed.
Lemma mul_flip_both x : word W x -> isnanb f x = false -> fmul nn f (flip f x) (flip f x) = fmul nn f x x.
Proof.
  intros Hx Nx. destruct (flip_ok Hx) as (Wy & Fy & Vy & Sy). pose proof (@fmul_word nn f x x) as W1. pose proof (@fmul_word nn f (flip f x) (flip f x)) as W2.
  destruct (mul_ok nn Hx Hx) as (A1 & A2 & A3 & A4 & A5 & A6 & A7). destruct (mul_ok nn Wy Wy) as (B1 & B2 & B3 & B4 & B5 & B6 & B7).
  rewrite sg_flip in * by auto. rewrite xorb_nilpotent in *. rewrite (flip_nan Hx) in *. rewrite (flip_inf Hx), (flip_zero Hx) in *. rewrite Fy, Vy in *. 
  destruct (class Hx) as [Nx'|[Ix|Cx]]. { congruence. } { rewrite A5, B5; auto using inf_nz. }
  assert (Fx : isfin f x = true) by (destruct Cx as [Cx|[Cx _]]; auto using zero_fin). specialize (A2 Fx Fx). specialize (B2 Fx Fx). rewrite Rmult_opp_opp in B2.
  pose proof (correct_nn _ _ (proj1 A2)) as N1. pose proof (correct_nn _ _ (proj1 B2)) as N2. destruct A2 as [C1 _], B2 as [C2 _]. unfold correct_round in *. destruct (Rlt_bool _ _); [|congruence].
  destruct C1 as [F1 V1], C2 as [F2 V2]. apply (@bits_inj f); auto. congruence. specialize (A7 N1). specialize (B7 N2). unfold sg in *. congruence.
Qed.
Lemma div_flip_l x y : word W x -> word W y -> opp_or_nan f (fdiv nn f x y) (fdiv nn f (flip f x) y).
Proof.
  intros Hx Hy. destruct (flip_ok Hx) as (Wx & Fx' & Vx & Sx). pose proof (fdiv_word nn (f := f) x y) as W1. pose proof (fdiv_word nn (f := f) (flip f x) y) as W2.
  destruct (div_ok nn Hx Hy) as (A1 & A2 & A3 & A4 & A5 & A6 & A7 & A8). destruct (div_ok nn Wx Hy) as (B1 & B2 & B3 & B4 & B5 & B6 & B7 & B8). unfold opp_or_nan.
  rewrite sg_flip in * by auto. replace (xorb (negb (sg f x)) (sg f y)) with (negb (xorb (sg f x) (sg f y))) in * by (destruct (sg f x), (sg f y); reflexivity).
  rewrite (flip_nan Hx) in *. rewrite (flip_inf Hx), (flip_zero Hx) in *. rewrite Fx' in *.
  assert (I1 : forall s, isnanb f (infs f s) = false) by (intros; unfold isnanb; now rewrite dec_infs). assert (Z1 : forall s, isnanb f (szero f s) = false) by (intros; unfold isnanb; now rewrite dec_szero).
  destruct (class Hx) as [Nx|[Ix|Cx]]; [rewrite A1 by auto; apply B1; auto|..].
  - destruct (class Hy) as [Ny|[Iy|Cy]]; [rewrite A1 by auto; apply B1; auto|..].
    + rewrite A4 by auto. apply B4; auto.
    + assert (Ffy : isfin f y = true) by (destruct Cy as [Cy|[Cy _]]; auto using zero_fin). rewrite A6, B6, I1, flip_infs by auto. reflexivity.
  - assert (Fx : isfin f x = true) by (destruct Cx as [Cx|[Cx _]]; auto using zero_fin).
    destruct (class Hy) as [Ny|[Iy|Cy]]; [rewrite A1 by auto; apply B1; auto|..].
    + rewrite A7, B7, Z1, flip_szero by auto. reflexivity.
    + destruct Cy as [Zy|[Ffy Nzy]].
      * destruct Cx as [Zx|[_ Nzx]]. { rewrite A3 by auto. apply B3; auto. } rewrite A5, B5, I1, flip_infs by (auto using fin_nn). reflexivity.
      * specialize (A2 Fx Ffy Nzy). rewrite Vx in B2. specialize (B2 Fx Ffy Nzy). replace (- val f x / val f y)%R with (- (val f x / val f y))%R in B2 by (unfold Rdiv; ring).
        pose proof (correct_nn _ _ (proj1 A2)) as N1. pose proof (correct_nn _ _ (proj1 B2)) as N2. rewrite N1. eapply ieee_flip; eauto.
Qed.
End Flip.

(** the value of a constant *)
Lemma val_cst f c n e : word (fw f) c -> isfin f c = true -> (if fsign (fw f) c then - msig f (fmag (fw f) c) else msig f (fmag (fw f) c))%Z = n -> mex f (fmag (fw f) c) = e ->
  val f c = (IZR n * bpow radix2 e)%R.
Proof. intros Hc Fc <- <-. rewrite (val_mag Hc Fc). unfold mval. destruct (fsign _ c); [rewrite opp_IZR; ring|reflexivity]. Qed.
Lemma oflow_val f : val f (c_oflow (fw f)) = bpow radix2 (match f with F32 => 22 | F64 => 51 end).
Proof.
  destruct f.
  - rewrite (@val_cst F32 (c_oflow (fw F32)) (Zpower radix2 23) (-1)) by (try reflexivity; unfold word; cbn; lia). rewrite IZR_Zpower by lia. now rewrite <- bpow_plus.
  - rewrite (@val_cst F64 (c_oflow (fw F64)) (Zpower radix2 52) (-1)) by (try reflexivity; unfold word; cbn; lia). rewrite IZR_Zpower by lia. now rewrite <- bpow_plus.
Qed.

Section Lanes.
Context {X : xty} (HX : xty_ok X) (HF : is_int (xT X) = false) (fm he : bool) (nn : nans).
Local Notation w := (xw X).
Local Notation f := (xf X).
Local Notation w_fw := (xw_fw HX HF).
Lemma sx_flip x : word (fw f) x -> sx1 (X := X) (flip f x) = Z.lxor (sx1 (X := X) x) (2 ^ (fw f - 1)).
Proof.
  intros Hx. unfold sx1. rewrite w_fw. destruct (flip_ok Hx) as (_ & _ & _ & ->). unfold sbit. destruct (fsign _ x); cbn [negb]; [now rewrite Z.lxor_nilpotent|reflexivity].
Qed.
Lemma ab_mag x : word (fw f) x -> ab1 (X := X) x = fmag (fw f) x.
Proof. rewrite <- w_fw. exact (ab1_mag HX HF (x := x)). Qed.
Lemma ab_flip x : word (fw f) x -> ab1 (X := X) (flip f x) = ab1 (X := X) x.
Proof. intros Hx. rewrite !ab_mag by (auto; apply flip_ok; auto). now apply flip_mag. Qed.
Lemma mag_word x : word (fw f) (fmag (fw f) x).
Proof. pose proof (fmag_range (f := f) x). unfold word. assert (2 ^ fw f = 2 * 2 ^ (fw f - 1))%Z by (destruct f; reflexivity). lia. Qed.
Lemma mag_mag x : fmag (fw f) (fmag (fw f) x) = fmag (fw f) x.
Proof. unfold fmag. apply Z.mod_mod. destruct f; discriminate. Qed.
Lemma mag_sign x : fsign (fw f) (fmag (fw f) x) = false.
Proof. pose proof (fmag_range (f := f) x). unfold fsign. lia. Qed.
Lemma nan_flt a b : fnan (fw f) a = true -> flt (fw f) b a = false.
Proof. intros H. unfold flt. rewrite H. cbn [negb]. now rewrite andb_false_r. Qed.
Lemma path_over x : word (fw f) x -> vector_path f he x -> over1 (X := X) (dom1 (X := X) he nn (ab1 (X := X) x)) = false.
Proof.
  intros Hx P. rewrite ab_mag by auto. set (a := fmag (fw f) x). assert (Wa : word (fw f) a) by apply mag_word.
  unfold over1, dom1. rewrite w_fw.
  assert (Wi : word (fw f) (finf (fw f))) by (destruct f; cbn; unfold word; lia).
  destruct P as [[Fx Vx]|[[Eh Ix]|Nx]].
  - assert (Fa : isfin f a = true) by (rewrite (isfin_spec Wa); unfold a; rewrite mag_mag, <- (isfin_spec Hx); auto).
    assert (Va : val f a = Rabs (val f x)). { rewrite (val_mag Wa Fa), (val_mag Hx Fx). unfold a. rewrite mag_sign, mag_mag. pose proof (mval_ge0 f (fin_word f Hx)). destruct (fsign _ x); [rewrite Rabs_Ropp|]; now rewrite Rabs_pos_eq. }
    assert (E : feq (fw f) a (finf (fw f)) = false).
    { unfold feq. replace (fkey (fw f) (finf (fw f))) with (finf (fw f)) by (destruct f; reflexivity). unfold fkey. unfold a. rewrite mag_sign, mag_mag. rewrite (isfin_spec Hx) in Fx. lia. }
    rewrite E. assert (Q : word (fw f) (c_oflow (fw f)) /\ isfin f (c_oflow (fw f)) = true /\ val f (c_oflow (fw f)) = bpow radix2 (match f with F32 => 22 | F64 => 51 end)).
    { split; [destruct f; cbn; unfold word; lia|]. split; [destruct f; reflexivity|]. apply oflow_val. }
    destruct Q as (Wo & Fo & Vo). destruct he; rewrite (flt_val Wo Wa Fo Fa), Vo, Va; now apply Rlt_bool_false.
  - rewrite Eh. assert (E : a = finf (fw f)) by now apply (isinf_mag Hx). assert (feq (fw f) a (finf (fw f)) = true) as -> by (rewrite E; destruct f; reflexivity).
    apply nan_flt. rewrite <- (isnan_spec (fdiv_word nn (f := f) _ _)). apply inv_nan; [exact Wa|]. left. left. rewrite E. destruct f; reflexivity.
  - assert (Na : fnan (fw f) a = true). { rewrite (isnan_spec Hx) in Nx. unfold fnan in *. unfold a. now rewrite mag_mag. }
    assert (feq (fw f) a (finf (fw f)) = false) as -> by (unfold feq; now rewrite Na). destruct he; now apply nan_flt.
Qed.
Lemma sin_flip ls x : word (fw f) x -> vector_path f he x \/ ls (flip f x) = flip f (ls x) -> sin1 (X := X) fm he nn ls (flip f x) = flip f (sin1 (X := X) fm he nn ls x).
Proof.
  intros Hx H. unfold sin1. rewrite ab_flip by auto. destruct (over1 _) eqn:O.
  - destruct H as [H|H]; auto. rewrite (path_over Hx H) in O. discriminate.
  - unfold esin1. cbv zeta. rewrite sx_flip by auto. unfold flip. now rewrite !Z.lxor_assoc.
Qed.
Lemma cos_flip lc x : word (fw f) x -> vector_path f he x \/ lc (flip f x) = lc x -> cos1 (X := X) fm he nn lc (flip f x) = cos1 (X := X) fm he nn lc x.
Proof.
  intros Hx H. unfold cos1. rewrite ab_flip by auto. destruct (over1 _) eqn:O; auto. destruct H as [H|H]; auto. rewrite (path_over Hx H) in O. discriminate.
Qed.
Lemma asin_flip x : word (fw f) x -> asin1 (X := X) fm he nn (flip f x) = flip f (asin1 (X := X) fm he nn x).
Proof. intros Hx. unfold asin1. rewrite ab_flip, sx_flip by auto. unfold easin1, flip. cbv zeta. now rewrite !Z.lxor_assoc. Qed.
Lemma atan_flip x : word (fw f) x -> atan1 (X := X) fm nn (flip f x) = flip f (atan1 (X := X) fm nn x).
Proof. intros Hx. unfold atan1. rewrite ab_flip, sx_flip by auto. unfold flip. now rewrite !Z.lxor_assoc. Qed.
Lemma oon_flip r : word (fw f) r -> opp_or_nan f r (flip f r).
Proof. intros H. unfold opp_or_nan. destruct (isnanb f r) eqn:E; auto. now rewrite flip_nan. Qed.
Lemma fma_word a b c : word (fw f) (fmadd1 (X := X) nn fm a b c).
Proof. unfold fmadd1. destruct fm; apply enc_word. Qed.
Lemma esin_w s a : word (fw f) s -> word (fw f) (esin1 (X := X) fm nn s a).
Proof.
  intros Hs. assert (0 <= fw f)%Z by (destruct f; discriminate). unfold esin1. cbv zeta. apply word_lxor; auto.
  - destruct (negb _); [apply fadd_word|apply fma_word].
  - apply word_lxor; auto. rewrite <- w_fw. apply (shl_word HX).
Qed.
Lemma ecos_w a : word (fw f) (ecos1 (X := X) fm nn a).
Proof.
  assert (0 <= fw f)%Z by (destruct f; discriminate). unfold ecos1. cbv zeta. apply word_lxor; auto.
  - destruct (negb _); [apply fma_word|apply fadd_word].
  - apply word_lxor; auto; rewrite <- w_fw; apply (shl_word HX).
Qed.
Lemma sx_w x : word (fw f) (sx1 (X := X) x).
Proof. unfold sx1, sbit. destruct (fsign _ x); destruct f; cbn; unfold word; lia. Qed.
Lemma polevl_w x c : Forall (word (fw f)) c -> word (fw f) (polevl1 (X := X) fm nn x c).
Proof.
  intros Hc. unfold polevl1. assert (H : word (fw f) (hd 0%Z c)) by (destruct Hc; auto; destruct f; cbn; unfold word; lia).
  revert H. generalize (hd 0%Z c). generalize (tl c). clear Hc. intros l. induction l as [|b l IH]; intros y Hy; cbn [fold_left]; auto. apply IH. apply fma_word.
Qed.
Lemma tan_flip lt x : word (fw f) x -> isnanb f x = false -> word (fw f) (lt x) -> vector_path f he x \/ lt (flip f x) = flip f (lt x) ->
  opp_or_nan f (tan1 (X := X) fm he nn lt x) (tan1 (X := X) fm he nn lt (flip f x)).
Proof.
  intros Hx Nx Wl H. unfold tan1. cbv zeta. rewrite ab_flip by auto. destruct (over1 _) eqn:O.
  - destruct H as [H|H]. { rewrite (path_over Hx H) in O. discriminate. } rewrite H. now apply oon_flip.
  - destruct (flt _ _ _).
    + rewrite mul_flip_both by auto. apply mul_flip_r; auto. apply polevl_w. rewrite <- w_fw. apply (tabs_ok HX HF).
    + unfold esin1 at 2. cbv zeta. rewrite sx_flip by auto. rewrite <- !Z.lxor_assoc. rewrite !Z.lxor_assoc, <- (Z.lxor_assoc (bit4_1 _)), <- Z.lxor_assoc.
      apply div_flip_l; [apply (esin_w _ (sx_w x))|apply ecos_w].
Qed.
Lemma pair_each (K : vec -> vec) (g : Z -> Z) a b (P : Z -> Z -> Z -> Prop) :
  (forall k a v, k < ext X -> L X k a v -> L X k (K a) (g v)) -> shaped X a -> shaped X b -> opposite X a b ->
  (forall x, word (fw f) x -> P x (g x) (g (flip f x))) -> pairwise X a (vz1 X (fun v => Ok (K v)) a) (vz1 X (fun v => Ok (K v)) b) P.
Proof.
  intros HK Ha Hb Ho HP. destruct (@k_each X HX K g a (fun x y => y = g x) HK Ha (fun v _ => eq_refl)) as (u & E1 & S1 & Q1). destruct (@k_each X HX K g b (fun x y => y = g x) HK Hb (fun v _ => eq_refl)) as (v & E2 & S2 & Q2).
  exists u, v. repeat (split; [assumption|]). intros i x Hi. destruct (Q1 i x Hi) as (r & R1 & ->). destruct (Q2 i _ (Ho i x Hi)) as (s & R2 & ->). exists (g x), (g (flip f x)). repeat split; auto.
  apply HP. rewrite <- w_fw. exact (el_word _ Ha Hi).
Qed.
End Lanes.

Definition libm_ok (X : xty) (g : Z -> Z) : Prop := forall v, word (xw X) v -> word (xw X) (g v).
(** sin and sincos: odd, bit for bit, NaNs included. *)
Theorem C42_sin_odd : forall nn X fm he ls a b, xty_ok X -> is_int (xT X) = false -> libm_ok X ls -> shaped X a -> shaped X b -> opposite X a b ->
  pairwise X a (x_sin X fm he nn ls a) (x_sin X fm he nn ls b) (fun x r s => vector_path (xf X) he x \/ ls (flip (xf X) x) = flip (xf X) (ls x) -> s = flip (xf X) r).
Proof.
  intros nn X fm he ls a b HX HF Hl Ha Hb Ho. apply (@pair_each X HX HF (fun v => fst (k_sincos X fm he nn ls ls v)) (sin1 (X := X) fm he nn ls)); auto.
  - intros k v x Hk Hv. exact (proj1 (l_sincos HX HF fm he nn ls ls Hl Hl Hv)).
  - intros x Hx H. now apply sin_flip.
Qed.
Print Assumptions C42_sin_odd.
(** cos: even, bit for bit. *)
Theorem C42_cos_even : forall nn X fm he lc a b, xty_ok X -> is_int (xT X) = false -> libm_ok X lc -> shaped X a -> shaped X b -> opposite X a b ->
  pairwise X a (x_cos X fm he nn lc a) (x_cos X fm he nn lc b) (fun x r s => vector_path (xf X) he x \/ lc (flip (xf X) x) = lc x -> s = r).
Proof.
  intros nn X fm he lc a b HX HF Hl Ha Hb Ho. apply (@pair_each X HX HF (fun v => snd (k_sincos X fm he nn lc lc v)) (cos1 (X := X) fm he nn lc)); auto.
  - intros k v x Hk Hv. exact (proj2 (l_sincos HX HF fm he nn lc lc Hl Hl Hv)).
  - intros x Hx H. now apply cos_flip.
Qed.
Print Assumptions C42_cos_even.
(** tan: odd for every non-NaN x (the result of -x is a NaN if that of x is). *)
Theorem C42_tan_odd : forall nn X fm he lt a b, xty_ok X -> is_int (xT X) = false -> libm_ok X lt -> shaped X a -> shaped X b -> opposite X a b ->
  pairwise X a (x_tan X fm he nn lt a) (x_tan X fm he nn lt b)
    (fun x r s => isnanb (xf X) x = false -> vector_path (xf X) he x \/ lt (flip (xf X) x) = flip (xf X) (lt x) -> opp_or_nan (xf X) r s).
Proof.
  intros nn X fm he lt a b HX HF Hl Ha Hb Ho. apply (@pair_each X HX HF (k_tan X fm he nn lt) (tan1 (X := X) fm he nn lt)); auto.
  - intros k v x Hk Hv. exact (l_tan HX HF fm he nn lt Hl Hv).
  - intros x Hx N H. apply tan_flip; auto. rewrite <- (xw_fw HX HF) in *. now apply Hl.
Qed.
Print Assumptions C42_tan_odd.
(** asin and atan: odd for every x, bit for bit. *)
Theorem C42_asin_atan_odd : forall nn X fm he a b, xty_ok X -> is_int (xT X) = false -> shaped X a -> shaped X b -> opposite X a b ->
  pairwise X a (x_asin X fm he nn a) (x_asin X fm he nn b) (fun x r s => s = flip (xf X) r) /\
  pairwise X a (x_atan X fm nn a) (x_atan X fm nn b) (fun x r s => s = flip (xf X) r).
Proof.
  intros nn X fm he a b HX HF Ha Hb Ho. split.
  - apply (@pair_each X HX HF (k_asin X fm he nn) (asin1 (X := X) fm he nn)); auto. { intros k v x Hk Hv. now apply l_asin. } intros x Hx. now apply asin_flip.
  - apply (@pair_each X HX HF (k_atan X fm nn) (atan1 (X := X) fm nn)); auto. { intros k v x Hk Hv. now apply l_atan. } intros x Hx. now apply atan_flip.
Qed.
Print Assumptions C42_asin_atan_odd.
(** sincos gives the same two vectors as sin and cos. *)
Theorem C42_sincos_agrees : forall nn X fm he ls lc a, xty_ok X -> is_int (xT X) = false -> libm_ok X ls -> libm_ok X lc -> shaped X a ->
  exists s c, x_sincos X fm he nn ls lc a = Ok (s, c) /\ x_sin X fm he nn ls a = Ok s /\ x_cos X fm he nn lc a = Ok c.
Proof.
  intros nn X fm he ls lc a HX HF Hs Hc Ha.
  destruct (@k_each X HX (fun v => fst (k_sincos X fm he nn ls ls v)) (sin1 (X := X) fm he nn ls) a (fun _ _ => True)) as (s & E1 & _); auto. { intros k v x Hk Hv. exact (proj1 (l_sincos HX HF fm he nn ls ls Hs Hs Hv)). }
  destruct (@k_each X HX (fun v => snd (k_sincos X fm he nn lc lc v)) (cos1 (X := X) fm he nn lc) a (fun _ _ => True)) as (c & E2 & _); auto. { intros k v x Hk Hv. exact (proj2 (l_sincos HX HF fm he nn lc lc Hc Hc Hv)). }
  exists s, c. split; auto. unfold x_sincos.
  assert (G1 : (fun x => Ok (fst (k_sincos X fm he nn ls lc x))) = (fun x => Ok (fst (k_sincos X fm he nn ls ls x)))). { apply FunctionalExtensionality.functional_extensionality. intros x. unfold k_sincos. cbv zeta. destruct (_ =? 0)%Z; reflexivity. }
  assert (G2 : (fun x => Ok (snd (k_sincos X fm he nn ls lc x))) = (fun x => Ok (snd (k_sincos X fm he nn lc lc x)))). { apply FunctionalExtensionality.functional_extensionality. intros x. unfold k_sincos. cbv zeta. destruct (_ =? 0)%Z; reflexivity. }
  rewrite G1, G2. unfold x_sin, x_cos in *. rewrite E1. cbn [bind]. rewrite E2. reflexivity.
Qed.
Print Assumptions C42_sincos_agrees.
(** 1, -2.5, 100, 0.3; the library is not called *)
Example C42_case : xty_ok (f4 haswell) /\ is_int (xT (f4 haswell)) = false /\ shaped (f4 haswell) [[0x3f800000; 0xc0200000; 0x42c80000; 0x3e99999a]]%Z /\
  opposite (f4 haswell) [[0x3f800000; 0xc0200000; 0x42c80000; 0x3e99999a]]%Z [[0xbf800000; 0x40200000; 0xc2c80000; 0xbe99999a]]%Z /\
  vector_path F32 false 0xc0200000 /\
  x_sin (f4 haswell) true false nans0 (fun x => x) [[0x3f800000; 0xc0200000; 0x42c80000; 0x3e99999a]]%Z = Ok [[0x3f576aa4; 0xbf193579; 0xbf01a12e; 0x3e974e6d]]%Z /\
  x_sin (f4 haswell) true false nans0 (fun x => x) [[0xbf800000; 0x40200000; 0xc2c80000; 0xbe99999a]]%Z = Ok [[0xbf576aa4; 0x3f193579; 0x3f01a12e; 0xbe974e6d]]%Z.
Proof.
  split; [xok|]. split; [reflexivity|]. split; [shp|]. split. { intros [|[|[|[|i]]]] x; cbn; intros H; try (destruct i; discriminate H); inversion H; reflexivity. }
  split. { left. split; [reflexivity|]. rewrite (@val_cst F32 0xc0200000 (-10485760) (-22)) by (try reflexivity; unfold word; cbn; lia). cbn. unfold Rabs. destruct (Rcase_abs _); lra. }
  split; vm_compute; reflexivity.
Qed.
