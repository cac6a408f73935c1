(** Floating-point classification, comparison, sign functions and nextafter (C26-C29).

    [xf X] is the IEEE format of the element type; a bit pattern means what Flocq's [binary_float_of_bits] says
    ([dec], [val], [isfin], [isnanb], [fcmp] of Fp.v). *)
From Coq Require Import ZifyBool ZifyNat Reals Lra.
From Flocq Require Import Core IEEE754.BinarySingleNaN IEEE754.Binary.
From Verif Require Import Base Cxx Spec X86Vec X86 X86Lemmas X86Proofs X86Masks X86Ops X86Shift Fp FpLemmas FpOps FKern FMath FMathProofs FNext PropX86.
Set Implicit Arguments.

(** The call is defined and element i of the result is related to element(s) i of the operand(s). *)
Definition each1 (X : xty) (a : list vec) (r : res (list vec)) (P : Z -> Z -> Prop) : Prop :=
  exists v, r = Ok v /\ shaped X v /\
    forall i x, nth_error (elems X a) i = Some x -> exists y, nth_error (elems X v) i = Some y /\ P x y.
Definition each2 (X : xty) (a b : list vec) (r : res (list vec)) (P : Z -> Z -> Z -> Prop) : Prop :=
  exists v, r = Ok v /\ shaped X v /\
    forall i x y, nth_error (elems X a) i = Some x -> nth_error (elems X b) i = Some y ->
      exists z, nth_error (elems X v) i = Some z /\ P x y z.

Section Help.
Context {X : xty} (HX : xty_ok X).
Lemma map1_each {f a r} {P : Z -> Z -> Prop} : shaped X a -> is_map1 X f a r -> (forall x, word (xw X) x -> P x (f x)) -> each1 X a r P.
Proof.
  intros Ha M H. destruct (is_map1_elems HX Ha M) as (v & -> & S & E). exists v. split; auto. split; auto. rewrite E. intros i x Hx.
  exists (f x). split. now apply map_nth_error. apply H. exact (el_word _ Ha Hx).
Qed.
Lemma map2_each {f a b r} {P : Z -> Z -> Z -> Prop} : shaped X a -> shaped X b -> is_map2 X f a b r ->
  (forall x y, word (xw X) x -> word (xw X) y -> P x y (f x y)) -> each2 X a b r P.
Proof.
  intros Ha Hb M H. destruct (is_map2_elems HX Ha Hb M) as (v & -> & S & E). exists v. split; auto. split; auto. rewrite E. intros i x y Hx Hy.
  exists (f x y). split. now apply nth_error_vmap2. apply H. exact (el_word _ Ha Hx). exact (el_word _ Hb Hy).
Qed.
End Help.

(** Examples: five floats on SSE4.1 (two registers), three doubles with AVX. *)
Definition fa : list vec := [[0x3f800000; 0x80000000; 0x7fc00000; 0xff800000]; [1; 2; 3; 4]]%Z.      (* 1, -0, NaN, -inf, min subnormal *)
Definition fb : list vec := [[0x3f800000; 0; 0x40000000; 0x7f7fffff]; [0x80000001; 0; 0; 0]]%Z.       (* 1, 0, 2, FLT_MAX, -min subnormal *)
Lemma fa_ok : shaped f32x5 fa. Proof. shp. Qed.
Lemma fb_ok : shaped f32x5 fb. Proof. shp. Qed.
Definition f64x3 : xty := {| xc := avx1; xT := {| esz := 8; ek := KFloat |}; xvs := 32; xN := 3 |}.
Lemma f64x3_ok : xty_ok f64x3. Proof. xok. Qed.
Definition da : list vec := [[0x3ff0000000000000; 0x8000000000000000; 1; 0]]%Z.
Lemma da_ok : shaped f64x3 da. Proof. shp. Qed.

(** *** C26: classification *)
(** infinite; normal: finite with |x| at least the smallest normal number 2^(2 - emax) *)
Definition isinfb (f : fmt) (x : Z) : bool := match dec f x with B754_infinity _ _ _ => true | _ => false end.
Definition isnormb (f : fmt) (x : Z) : bool := isfin f x && Rle_bool (bpow radix2 (2 - emax f)) (Rabs (val f x)).

Theorem C26_isnan : forall X a, xty_ok X -> is_int (xT X) = false -> shaped X a -> mask1_ok X (isnanb (xf X)) a (x_isnan X a).
Proof.
  intros X a HX HF Ha. apply (@mask1_op X HX (fnan (xw X))); auto. apply x_isnan_ok; auto.
  intros x Hx. rewrite (xw_fw HX HF) in *. symmetry. now apply isnan_spec.
Qed.
Print Assumptions C26_isnan.
Theorem C26_isinf : forall X a, xty_ok X -> is_int (xT X) = false -> shaped X a -> mask1_ok X (isinfb (xf X)) a (x_isinf X a).
Proof.
  intros X a HX HF Ha. apply (@mask1_op X HX (fun x => fmag (xw X) x =? finf (xw X))%Z); auto. apply x_isinf_ok; auto.
  intros x Hx. rewrite (xw_fw HX HF) in *. unfold isinfb.
  destruct (fclass Hx) as [[A1 A2]|[(A1 & A2 & A3)|(A1 & A2 & A3)]].
  - rewrite <- (isnan_spec Hx) in A1. unfold isnanb in A1. unfold isfin in A2. pose proof (isnan_spec Hx) as Q. unfold isnanb in Q.
    destruct (dec (xf X) x); try discriminate. unfold fnan in Q. cbn in Q. lia.
  - rewrite (dec_inf Hx A2). lia.
  - unfold isfin in A3. destruct (dec (xf X) x); try discriminate; lia.
Qed.
Print Assumptions C26_isinf.
Theorem C26_isfinite : forall X a, xty_ok X -> is_int (xT X) = false -> shaped X a -> mask1_ok X (isfin (xf X)) a (x_isfinite X a).
Proof.
  intros X a HX HF Ha. apply (@mask1_op X HX (fun x => fmag (xw X) x <? finf (xw X))%Z); auto. apply x_isfinite_ok; auto.
  intros x Hx. rewrite (xw_fw HX HF) in *. symmetry. now apply isfin_spec.
Qed.
Print Assumptions C26_isfinite.

Lemma mval_minnorm f : mval f (2 ^ mw f) = bpow radix2 (2 - emax f).
Proof.
  unfold mval, msig, mex, mexp, mman. rewrite Z_mod_same_full, Z_div_same by (destruct f; reflexivity). change (1 =? 0)%Z with false. change (Z.max 1 1) with 1%Z.
  cbv iota. rewrite Z.add_0_l. change (2 ^ mw f)%Z with (Z.pow (radix_val radix2) (mw f)). rewrite IZR_Zpower by (destruct f; cbn; lia).
  rewrite <- bpow_plus. f_equal. unfold emin, prec. lia.
Qed.
Lemma normal_bits {f x} : word (fw f) x -> isnormb f x = ((2 ^ mant (fw f) <=? fmag (fw f) x) && (fmag (fw f) x <? finf (fw f)))%Z.
Proof.
  intros Hx. unfold isnormb. rewrite (isfin_spec Hx). rewrite mant_mw.
  destruct (fmag (fw f) x <? finf (fw f))%Z eqn:Q; [|now rewrite andb_false_r]. rewrite andb_true_r. cbn [andb].
  rewrite <- (isfin_spec Hx) in Q. rewrite (val_mag Hx Q).
  replace (Rabs (if fsign (fw f) x then - mval f (fmag (fw f) x) else mval f (fmag (fw f) x))) with (mval f (fmag (fw f) x)).
  2:{ pose proof (mval_nonneg (f := f) (fmag (fw f) x)). destruct (fsign (fw f) x); rewrite ?Rabs_Ropp; now rewrite Rabs_pos_eq. }
  rewrite <- mval_minnorm. pose proof (fmag_nonneg (f := f) x). pose proof (@mm_pos f).
  destruct (2 ^ mw f <=? fmag (fw f) x)%Z eqn:C.
  - apply Rle_bool_true. destruct (Z.eq_dec (2 ^ mw f) (fmag (fw f) x)) as [-> | N]; [lra|]. left. apply mval_lt. lia.
  - apply Rle_bool_false. apply mval_lt. lia.
Qed.
(** Missing from isnormal: NaN elements, for which the library answers true (refuted below). *)
Theorem C26_isnormal_partial : forall X a, xty_ok X -> is_int (xT X) = false -> shaped X a ->
  each1 X a (x_isnormal X a) (fun x m => isnanb (xf X) x = false -> m = mlane (xw X) (isnormb (xf X) x)).
Proof.
  intros X a HX HF Ha. apply (map1_each HX Ha (x_isnormal_ok HX HF Ha)). intros x Hx Hn. f_equal. rewrite (xw_fw HX HF) in *.
  rewrite (isnan_spec Hx) in Hn. unfold nrm. rewrite Hn, (normal_bits Hx). reflexivity.
Qed.
Print Assumptions C26_isnormal_partial.
Theorem C26_isnormal_refuted : exists X a m, xty_ok X /\ is_int (xT X) = false /\ shaped X a /\
  x_isnormal X a = Ok m /\ nth_error (mask_elems X m) 2 = Some true /\
  exists x, nth_error (elems X a) 2 = Some x /\ isnanb (xf X) x = true.
Proof.
  exists f32x5, fa. eexists. split; [exact f32x5_ok|]. split; [reflexivity|]. split; [exact fa_ok|]. split; [vm_compute; reflexivity|].
  split; [reflexivity|]. eexists. split; reflexivity.
Qed.
Print Assumptions C26_isnormal_refuted.
(** signbit: reading the mask gives the sign bits ... *)
Theorem C26_signbit : forall X a, xty_ok X -> is_int (xT X) = false -> shaped X a ->
  exists m, x_signbit X a = Ok m /\ shaped X m /\ mask_elems X m = map (fun x => Bsign _ _ (dec (xf X) x)) (elems X a).
Proof.
  intros X a HX HF Ha. destruct (is_map1_elems HX Ha (x_signbit_ok HX HF Ha)) as (v & E & S & M). exists v. split; [exact E|]. split; [exact S|].
  unfold mask_elems. rewrite M, map_map. apply map_ext_in. intros x Hx. pose proof (words_In _ (elems_words Ha) Hx) as Wx.
  rewrite (xw_fw HX HF) in *. rewrite (sign_spec Wx). destruct (fsign (fw (xf X)) x); destruct (xf X); reflexivity.
Qed.
Print Assumptions C26_signbit.
(** ... but the lanes are -0.0, and popcount of the mask of negative elements is 0. *)
Theorem C26_signbit_refuted : exists X a m, xty_ok X /\ is_int (xT X) = false /\ shaped X a /\ x_signbit X a = Ok m /\
  mask_elems X m = [true; true; true; true] /\ x_reduce_count X m = Ok 0 /\ x_all_of X m = Ok false.
Proof.
  exists {| xc := sse2; xT := {| esz := 4; ek := KFloat |}; xvs := 16; xN := 4 |}, [[0xbf800000; 0xbf800000; 0xbf800000; 0xbf800000]]%Z.
  eexists. split; [xok|]. split; [reflexivity|]. split; [shp|]. split; [vm_compute; reflexivity|]. repeat split; vm_compute; reflexivity.
Qed.
Print Assumptions C26_signbit_refuted.
Example C26_case : xty_ok f32x5 /\ is_int (xT f32x5) = false /\ shaped f32x5 fa /\
  rmap (mask_elems f32x5) (x_isnan f32x5 fa) = Ok [false; false; true; false; false] /\
  rmap (mask_elems f32x5) (x_isinf f32x5 fa) = Ok [false; false; false; true; false] /\
  rmap (mask_elems f32x5) (x_isfinite f32x5 fa) = Ok [true; true; false; false; true].
Proof. split; [exact f32x5_ok|]. split; [reflexivity|]. split; [exact fa_ok|]. repeat split; vm_compute; reflexivity. Qed.

(** *** C27: quiet comparisons *)
Definition ord_is (l : list comparison) (f : fmt) (x y : Z) : bool :=
  match fcmp f x y with Some c => existsb (fun c' => match c, c' with Lt, Lt | Eq, Eq | Gt, Gt => true | _, _ => false end) l | None => false end.
Definition C27_spec (X : xty) (op : xty -> list vec -> list vec -> res (list vec)) (l : list comparison) : Prop :=
  forall a b, shaped X a -> shaped X b -> mask2_ok X (ord_is l (xf X)) a b (op X a b).
Lemma flt_cmp {f x y} : word (fw f) x -> word (fw f) y -> flt (fw f) x y = ord_is [Lt] f x y.
Proof.
  intros Hx Hy. unfold ord_is. rewrite (fcmp_spec Hx Hy). unfold flt. destruct (fnan (fw f) x), (fnan (fw f) y); cbn [negb andb orb]; auto.
  unfold Z.ltb. destruct (fkey (fw f) x ?= fkey (fw f) y)%Z; reflexivity.
Qed.
Lemma fgt_cmp {f x y} : word (fw f) x -> word (fw f) y -> flt (fw f) y x = ord_is [Gt] f x y.
Proof.
  intros Hx Hy. unfold ord_is. rewrite (fcmp_spec Hx Hy). unfold flt. destruct (fnan (fw f) x), (fnan (fw f) y); cbn [negb andb orb]; auto.
  unfold Z.ltb. rewrite Z.compare_antisym. destruct (fkey (fw f) x ?= fkey (fw f) y)%Z; reflexivity.
Qed.
Lemma fle_cmp {f x y} : word (fw f) x -> word (fw f) y -> fle (fw f) x y = ord_is [Lt; Eq] f x y.
Proof.
  intros Hx Hy. unfold ord_is. rewrite (fcmp_spec Hx Hy). unfold fle. destruct (fnan (fw f) x), (fnan (fw f) y); cbn [negb andb orb]; auto.
  unfold Z.leb. destruct (fkey (fw f) x ?= fkey (fw f) y)%Z; reflexivity.
Qed.
Lemma fge_cmp {f x y} : word (fw f) x -> word (fw f) y -> fle (fw f) y x = ord_is [Gt; Eq] f x y.
Proof.
  intros Hx Hy. unfold ord_is. rewrite (fcmp_spec Hx Hy). unfold fle. destruct (fnan (fw f) x), (fnan (fw f) y); cbn [negb andb orb]; auto.
  unfold Z.leb. rewrite Z.compare_antisym. destruct (fkey (fw f) x ?= fkey (fw f) y)%Z; reflexivity.
Qed.
Theorem C27_ordered : forall X, xty_ok X -> is_int (xT X) = false ->
  C27_spec X x_isgreater [Gt] /\ C27_spec X x_isgreaterequal [Gt; Eq] /\ C27_spec X x_isless [Lt] /\ C27_spec X x_islessequal [Lt; Eq].
Proof.
  intros X HX HF. pose proof (xw_fw HX HF) as Ew.
  split; [|split; [|split]]; intros a b Ha Hb.
  - apply (@mask2_op X HX (fun x y => flt (xw X) y x)); auto. apply x_isgreater_ok; auto. intros x y Hx Hy. rewrite Ew in *. now apply fgt_cmp.
  - apply (@mask2_op X HX (fun x y => fle (xw X) y x)); auto. apply x_isgreaterequal_ok; auto. intros x y Hx Hy. rewrite Ew in *. now apply fge_cmp.
  - apply (@mask2_op X HX (fun x y => flt (xw X) x y)); auto. apply x_isless_ok; auto. intros x y Hx Hy. rewrite Ew in *. now apply flt_cmp.
  - apply (@mask2_op X HX (fun x y => fle (xw X) x y)); auto. apply x_islessequal_ok; auto. intros x y Hx Hy. rewrite Ew in *. now apply fle_cmp.
Qed.
Print Assumptions C27_ordered.
Theorem C27_isunordered : forall X a b, xty_ok X -> is_int (xT X) = false -> shaped X a -> shaped X b ->
  mask2_ok X (fun x y => match fcmp (xf X) x y with None => true | Some _ => false end) a b (x_isunordered X a b).
Proof.
  intros X a b HX HF Ha Hb. apply (@mask2_op X HX (fun x y => fnan (xw X) x || fnan (xw X) y)); auto. apply x_isunordered_ok; auto. intros x y Hx Hy. rewrite (xw_fw HX HF) in *.
  rewrite (fcmp_spec Hx Hy). cbn beta. destruct (_ || _); reflexivity.
Qed.
Print Assumptions C27_isunordered.
(** Missing from islessgreater: equal operands, for which the library answers true (refuted below). *)
Theorem C27_islessgreater_partial : forall X a b, xty_ok X -> is_int (xT X) = false -> shaped X a -> shaped X b ->
  each2 X a b (x_islessgreater X a b) (fun x y m => fcmp (xf X) x y <> Some Eq -> m = mlane (xw X) (ord_is [Lt; Gt] (xf X) x y)).
Proof.
  intros X a b HX HF Ha Hb. apply (map2_each HX Ha Hb (x_islessgreater_ok HX HF Ha Hb)). intros x y Hx Hy Hn. f_equal. rewrite (xw_fw HX HF) in *.
  rewrite (fge_cmp Hx Hy), (fle_cmp Hx Hy). unfold ord_is in *. destruct (fcmp (xf X) x y) as [[]|]; try reflexivity. congruence.
Qed.
Print Assumptions C27_islessgreater_partial.
Theorem C27_islessgreater_refuted : exists X a m, xty_ok X /\ is_int (xT X) = false /\ shaped X a /\
  x_islessgreater X a a = Ok m /\ nth_error (mask_elems X m) 0 = Some true /\
  exists x, nth_error (elems X a) 0 = Some x /\ fcmp (xf X) x x = Some Eq.
Proof.
  exists f32x5, fa. eexists. split; [exact f32x5_ok|]. split; [reflexivity|]. split; [exact fa_ok|]. split; [vm_compute; reflexivity|].
  split; [reflexivity|]. eexists. split; [reflexivity|]. vm_compute. reflexivity.
Qed.
Print Assumptions C27_islessgreater_refuted.
Example C27_case : shaped f32x5 fa /\ shaped f32x5 fb /\
  rmap (mask_elems f32x5) (x_isgreater f32x5 fa fb) = Ok [false; false; false; false; true] /\
  rmap (mask_elems f32x5) (x_islessequal f32x5 fa fb) = Ok [true; true; false; true; false] /\
  rmap (mask_elems f32x5) (x_isunordered f32x5 fa fb) = Ok [false; false; true; false; false].
Proof. split; [exact fa_ok|]. split; [exact fb_ok|]. repeat split; vm_compute; reflexivity. Qed.

(** *** C28: sign manipulation, bit by bit *)
Definition bits_are (w : Z) (y : Z) (b : Z -> bool) : Prop := word w y /\ forall k, (0 <= k < w)%Z -> Z.testbit y k = b k.
Lemma testbit_join f s {m k} : (0 <= m < 2 ^ (fw f - 1))%Z -> (0 <= k < fw f)%Z ->
  Z.testbit (m + (if s : bool then 2 ^ (fw f - 1) else 0)) k = if (k =? fw f - 1)%Z then s else Z.testbit m k.
Proof.
  intros Hm Hk. rewrite <- sign_mag_lor by exact Hm. rewrite Z.lor_spec. destruct (k =? fw f - 1)%Z eqn:Q.
  - assert (k = fw f - 1)%Z by lia. subst k. replace (Z.testbit m (fw f - 1)) with false.
    2:{ symmetry. rewrite Z.testbit_false by lia. now rewrite Z.div_small. }
    destruct s. now rewrite Z.pow2_bits_true by lia. apply Z.bits_0.
  - destruct s. rewrite Z.pow2_bits_false by lia. apply orb_false_r. rewrite Z.bits_0. apply orb_false_r.
Qed.
Lemma testbit_sign {f x} : word (fw f) x -> Z.testbit x (fw f - 1) = fsign (fw f) x.
Proof.
  intros Hx. destruct (word_split Hx) as [Hm S]. rewrite S at 1. rewrite testbit_join, Z.eqb_refl; auto. destruct f; cbn; lia.
Qed.
Lemma testbit_mag f x k : (0 <= k < fw f - 1)%Z -> Z.testbit (fmag (fw f) x) k = Z.testbit x k.
Proof. intros Hk. unfold fmag. apply Z.mod_pow2_bits_low. lia. Qed.

Theorem C28_fabs : forall X F a, xty_ok X -> is_int (xT X) = false -> shaped X a ->
  each1 X a (x_fabs X F a) (fun x y => bits_are (xw X) y (fun k => if (k =? xw X - 1)%Z then false else Z.testbit x k)).
Proof.
  intros X F a HX HF Ha. apply (map1_each HX Ha (x_fabs_ok HX HF F Ha)). intros x Hx. rewrite (xw_fw HX HF) in *. split; [apply fmag_word|].
  intros k Hk. pose proof (testbit_join (xf X) false (fmag_range x) Hk) as T. rewrite Z.add_0_r in T. rewrite T.
  destruct (k =? fw (xf X) - 1)%Z eqn:Q; auto. apply testbit_mag. lia.
Qed.
Print Assumptions C28_fabs.
Theorem C28_neg : forall X F a, xty_ok X -> is_int (xT X) = false -> shaped X a ->
  each1 X a (x_neg X F a) (fun x y => bits_are (xw X) y (fun k => if (k =? xw X - 1)%Z then negb (Z.testbit x k) else Z.testbit x k)).
Proof.
  intros X F a HX HF Ha. apply (map1_each HX Ha (x_neg_ok HX F Ha)). intros x Hx. unfold lane_neg. rewrite HF. rewrite (xw_fw HX HF) in *.
  rewrite (neg_lane Hx). split; [apply word_join, fmag_range|].
  intros k Hk. rewrite (testbit_join (xf X) _ (fmag_range x) Hk).
  destruct (k =? fw (xf X) - 1)%Z eqn:Q; [|apply testbit_mag; lia]. replace k with (fw (xf X) - 1)%Z by lia. now rewrite (testbit_sign Hx).
Qed.
Print Assumptions C28_neg.
Theorem C28_copysign : forall X a s, xty_ok X -> is_int (xT X) = false -> shaped X a -> shaped X s ->
  each2 X a s (x_copysign X a s) (fun x s y => bits_are (xw X) y (fun k => if (k =? xw X - 1)%Z then Z.testbit s k else Z.testbit x k)).
Proof.
  intros X a s HX HF Ha Hs. apply (map2_each HX Ha Hs (x_copysign_ok HX HF Ha Hs)). intros x y Hx Hy. unfold cps. rewrite (xw_fw HX HF) in *.
  split; [apply word_join, fmag_range|].
  intros k Hk. rewrite (testbit_join (xf X) _ (fmag_range x) Hk).
  destruct (k =? fw (xf X) - 1)%Z eqn:Q; [|apply testbit_mag; lia]. replace k with (fw (xf X) - 1)%Z by lia. now rewrite (testbit_sign Hy).
Qed.
Print Assumptions C28_copysign.
Theorem C28_copysign_scalar : forall X a s, xty_ok X -> is_int (xT X) = false -> shaped X a -> word (xw X) s ->
  each1 X a (x_copysign_s X a s) (fun x y => bits_are (xw X) y (fun k => if (k =? xw X - 1)%Z then Z.testbit s k else Z.testbit x k)).
Proof.
  intros X a s HX HF Ha Hs. apply (map1_each HX Ha (x_copysign_s_ok HX HF Ha Hs)). intros x Hx. unfold cps. rewrite (xw_fw HX HF) in *.
  split; [apply word_join, fmag_range|].
  intros k Hk. rewrite (testbit_join (xf X) _ (fmag_range x) Hk).
  destruct (k =? fw (xf X) - 1)%Z eqn:Q; [|apply testbit_mag; lia]. replace k with (fw (xf X) - 1)%Z by lia. now rewrite (testbit_sign Hs).
Qed.
Print Assumptions C28_copysign_scalar.

(** Integer abs.  Proved: signed element types of 1, 2, 4 bytes on a configuration with the pabs instructions.
    Missing: 8-byte elements and configurations without pabs, where it is wrong for negative and for large positive
    values; unsigned element types (both refuted below). *)
Theorem C28_iabs_partial : forall X F a, xty_ok X -> is_int (xT X) = true -> isg (ity_of (xT X)) = true ->
  esz (xT X) <> 8 -> (if is256 X then avx2 (xc X) else ssse3 (xc X)) = true -> shaped X a ->
  each1 X a (x_abs X F a) (fun x y => y = (Z.abs (sgn (xw X) x) mod 2 ^ xw X)%Z).
Proof.
  intros X F a HX HI HS H8 Hn Ha. pose proof (w_pos HX).
  eapply (map1_each HX Ha); [apply vz1_map; auto|].
  - intros v Hv. unfold v_abs, v_abs_i. rewrite HI, Hn. replace (esz (xT X) =? 8) with false by lia. cbn [negb andb]. reflexivity.
  - intros x Hx. apply wrap_word. lia.
  - intros x Hx. reflexivity.
Qed.
Print Assumptions C28_iabs_partial.
Theorem C28_iabs_refuted :
  (exists X F a r, xty_ok X /\ isg (ity_of (xT X)) = true /\ shaped X a /\ x_abs X F a = Ok r /\
     elems X a = [(2 ^ 64 - 5)%Z; (2 ^ 62)%Z] /\ elems X r = [(2 ^ 64 - 11)%Z; (2 ^ 62)%Z]) /\
  (exists X F a r, xty_ok X /\ isg (ity_of (xT X)) = true /\ shaped X a /\ x_abs X F a = Ok r /\
     elems X a = [5; 2 ^ 32 - 5; 2 ^ 30 + 1; 0]%Z /\ elems X r = [5; 2 ^ 32 - 11; 2 ^ 30 - 1; 0]%Z) /\
  (exists X F a r, xty_ok X /\ isg (ity_of (xT X)) = false /\ shaped X a /\ x_abs X F a = Ok r /\
     elems X a = [2 ^ 32 - 1; 0; 0; 0]%Z /\ elems X r = [1; 0; 0; 0]%Z).
Proof.
  split; [|split].
  - exists i64x2, noF, [[2 ^ 64 - 5; 2 ^ 62]]%Z. eexists. split; [exact i64x2_ok|]. split; [reflexivity|]. split; [shp|]. split; [vm_compute; reflexivity|].
    split; vm_compute; reflexivity.
  - exists {| xc := sse2; xT := {| esz := 4; ek := KInt true |}; xvs := 16; xN := 4 |}, noF, [[5; 2 ^ 32 - 5; 2 ^ 30 + 1; 0]]%Z. eexists.
    split; [xok|]. split; [reflexivity|]. split; [shp|]. split; [vm_compute; reflexivity|]. split; vm_compute; reflexivity.
  - exists {| xc := sse4; xT := {| esz := 4; ek := KInt false |}; xvs := 16; xN := 4 |}, noF, [[2 ^ 32 - 1; 0; 0; 0]]%Z. eexists.
    split; [xok|]. split; [reflexivity|]. split; [shp|]. split; [vm_compute; reflexivity|]. split; vm_compute; reflexivity.
Qed.
Print Assumptions C28_iabs_refuted.
Example C28_case : shaped f32x5 fa /\ shaped f32x5 fb /\
  rmap (elems f32x5) (x_fabs f32x5 noF fa) = Ok [0x3f800000; 0; 0x7fc00000; 0x7f800000; 1]%Z /\
  rmap (elems f32x5) (x_neg f32x5 noF fa) = Ok [0xbf800000; 0; 0xffc00000; 0x7f800000; 0x80000001]%Z /\
  rmap (elems f32x5) (x_copysign f32x5 fa fb) = Ok [0x3f800000; 0; 0x7fc00000; 0x7f800000; 0x80000001]%Z.
Proof. split; [exact fa_ok|]. split; [exact fb_ok|]. repeat split; vm_compute; reflexivity. Qed.

(** *** C29: nextafter *)
Definition next_ok (f : fmt) (a b c : Z) : Prop :=
  match fcmp f a b with
  | None => isnanb f c = true
  | Some Eq => c = b
  | Some Lt => fcmp f a c = Some Lt /\ (fcmp f c b = Some Lt \/ fcmp f c b = Some Eq) /\
               forall d, word (fw f) d -> fcmp f a d = Some Lt -> fcmp f d c <> Some Lt
  | Some Gt => fcmp f a c = Some Gt /\ (fcmp f c b = Some Gt \/ fcmp f c b = Some Eq) /\
               forall d, word (fw f) d -> fcmp f a d = Some Gt -> fcmp f d c <> Some Gt
  end.
Theorem C29_nextafter : forall X F a b, xty_ok X -> is_int (xT X) = false -> shaped X a -> shaped X b ->
  each2 X a b (x_nextafter X F a b) (next_ok (xf X)).
Proof.
  intros X F a b HX HF Ha Hb. apply (map2_each HX Ha Hb (x_nextafter_ok HX HF F Ha Hb)). intros x y Hx Hy.
  assert (Hc : word (xw X) (nxt (xw X) x y)) by (apply nxt_word; auto).
  rewrite (xw_fw HX HF) in *. set (f := xf X) in *. clearbody f. clear - Hx Hy Hc. unfold next_ok. rewrite (fcmp_spec Hx Hy).
  destruct (fnan (fw f) x) eqn:Nx; cbn [orb]; [rewrite (isnan_spec Hc); apply nxt_nan; auto|].
  destruct (fnan (fw f) y) eqn:Ny; cbn [orb]; [rewrite (isnan_spec Hc); apply nxt_nan; auto|].
  destruct (Z.compare_spec (fkey (fw f) x) (fkey (fw f) y)) as [C|C|C].
  - unfold nxt, feq. rewrite Nx, Ny, C, Z.eqb_refl. reflexivity.
  - destruct (nxt_step Hx Hy Nx Ny) as [N K]; [lia|]. replace (fkey (fw f) x <? fkey (fw f) y)%Z with true in K by lia.
    rewrite (fcmp_spec Hx Hc), (fcmp_spec Hc Hy), Nx, Ny, N, K. cbn [orb]. split; [|split].
    + f_equal. apply Z.compare_lt_iff. lia.
    + destruct (Z.compare_spec (fkey (fw f) x + 1) (fkey (fw f) y)); auto. lia.
    + intros d Hd. rewrite (fcmp_spec Hx Hd), (fcmp_spec Hd Hc), Nx, N, K. cbn [orb]. destruct (fnan (fw f) d); cbn [orb]; [discriminate|].
      intros E1 E2. inversion E1 as [E1']. inversion E2 as [E2']. rewrite Z.compare_lt_iff in E1', E2'. lia.
  - destruct (nxt_step Hx Hy Nx Ny) as [N K]; [lia|]. replace (fkey (fw f) x <? fkey (fw f) y)%Z with false in K by lia.
    rewrite (fcmp_spec Hx Hc), (fcmp_spec Hc Hy), Nx, Ny, N, K. cbn [orb]. split; [|split].
    + f_equal. apply Z.compare_gt_iff. lia.
    + destruct (Z.compare_spec (fkey (fw f) x + -1) (fkey (fw f) y)); auto. lia.
    + intros d Hd. rewrite (fcmp_spec Hx Hd), (fcmp_spec Hd Hc), Nx, N, K. cbn [orb]. destruct (fnan (fw f) d); cbn [orb]; [discriminate|].
      intros E1 E2. inversion E1 as [E1']. inversion E2 as [E2']. rewrite Z.compare_gt_iff in E1', E2'. lia.
Qed.
Print Assumptions C29_nextafter.
Example C29_case : shaped f32x5 fa /\ shaped f32x5 fb /\
  rmap (elems f32x5) (x_nextafter f32x5 noF fa fb) = Ok [0x3f800000; 0; 0x7fc00000; 0xff7fffff; 0]%Z.
Proof. split; [exact fa_ok|]. split; [exact fb_ok|]. vm_compute; reflexivity. Qed.
