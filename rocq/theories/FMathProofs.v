(** Lane meaning of the classification, sign and nextafter functions. *)
From Coq Require Import ZifyBool ZifyNat.
From Verif Require Import Base Cxx Spec X86Vec X86 X86Lemmas X86Proofs X86Ops X86Shift Fp FpLemmas FKern FMath.
Set Implicit Arguments.

(** the float format of a float element type *)
Definition xf (X : xty) : fmt := fmt_of (xw X).
Lemma xw_fw X : xty_ok X -> is_int (xT X) = false -> xw X = fw (xf X).
Proof. intros (_ & HT & _) Hf. unfold xf. destruct (float_w X HT Hf) as [-> | ->]; reflexivity. Qed.

Section Lane.
Open Scope Z_scope.
Context {f : fmt}.
Local Notation W := (fw f).
Lemma land_low x : Z.land x (2 ^ (W - 1) - 1) = fmag W x.
Proof. unfold fmag. rewrite <- Z.land_ones by (destruct f; cbn; lia). rewrite Z.ones_equiv. reflexivity. Qed.
Lemma land_sign x : word W x -> Z.land x (2 ^ (W - 1)) = (if fsign W x then 2 ^ (W - 1) else 0).
Proof.
  intros Hx. destruct (word_split Hx) as [Hm S]. rewrite S at 1. clear S.
  set (m := fmag W x) in *. apply Z.bits_inj'. intros n Hn. rewrite Z.land_spec.
  assert (P : 0 <= W - 1) by (destruct f; cbn; lia).
  destruct (Z.eq_dec n (W - 1)) as [-> | N].
  - rewrite Z.pow2_bits_true by lia. rewrite Bool.andb_true_r.
    destruct (fsign W x).
    + rewrite Z.pow2_bits_true by lia. rewrite Z.testbit_true by lia.
      replace (m + 2 ^ (W - 1)) with (m + 1 * 2 ^ (W - 1)) by lia. rewrite Z_div_plus by lia. rewrite Z.div_small by lia. reflexivity.
    + rewrite Z.add_0_r, Z.bits_0. rewrite Z.testbit_false by lia. rewrite Z.div_small by lia. reflexivity.
  - rewrite Z.pow2_bits_false by lia. rewrite Bool.andb_false_r. destruct (fsign W x); rewrite ?Z.bits_0, ?Z.pow2_bits_false by lia; reflexivity.
Qed.
Lemma land_mag_sign m : 0 <= m < 2 ^ (W - 1) -> Z.land m (2 ^ (W - 1)) = 0.
Proof.
  intros Hm. assert (Hw : word W m). { unfold word. rewrite (@pw f). lia. }
  rewrite (land_sign Hw). unfold fsign. replace (2 ^ (W - 1) <=? m) with false by lia. reflexivity.
Qed.
Lemma sign_mag_lor s m : 0 <= m < 2 ^ (W - 1) -> Z.lor m (if s : bool then 2 ^ (W - 1) else 0) = m + (if s then 2 ^ (W - 1) else 0).
Proof.
  intros Hm. destruct s; [|rewrite Z.lor_0_r; lia].
  rewrite <- Z.lxor_lor by now apply land_mag_sign. symmetry. apply Z.add_nocarry_lxor. now apply land_mag_sign.
Qed.
Lemma fmag_join s m : 0 <= m < 2 ^ (W - 1) -> fmag W (m + (if s : bool then 2 ^ (W - 1) else 0)) = m.
Proof.
  intros Hm. unfold fmag. destruct s.
  - replace (m + 2 ^ (W - 1)) with (m + 1 * 2 ^ (W - 1)) by lia. rewrite Z_mod_plus_full, Z.mod_small by lia. reflexivity.
  - rewrite Z.add_0_r. apply Z.mod_small. lia.
Qed.
Lemma fsign_join s m : 0 <= m < 2 ^ (W - 1) -> fsign W (m + (if s : bool then 2 ^ (W - 1) else 0)) = s.
Proof. intros Hm. unfold fsign. destruct s; lia. Qed.
Lemma word_join s m : 0 <= m < 2 ^ (W - 1) -> word W (m + (if s : bool then 2 ^ (W - 1) else 0)).
Proof. intros Hm. unfold word. rewrite (@pw f). destruct s; lia. Qed.
Lemma fmag_range x : 0 <= fmag W x < 2 ^ (W - 1). Proof. apply Z.mod_pos_bound. destruct f; reflexivity. Qed.
Lemma fmag_word x : word W (fmag W x). Proof. pose proof (fmag_range x). unfold word. rewrite (@pw f). lia. Qed.
Lemma fsign_mag x : fsign W (fmag W x) = false. Proof. pose proof (fmag_range x). unfold fsign. lia. Qed.
Lemma fmag_mag x : fmag W (fmag W x) = fmag W x. Proof. apply Z.mod_small, fmag_range. Qed.
Lemma neg_lane x : word W x -> Z.lxor x (2 ^ (W - 1)) = fmag W x + (if negb (fsign W x) then 2 ^ (W - 1) else 0).
Proof.
  intros Hx. destruct (word_split Hx) as [Hm S]. rewrite S at 1. clear S. destruct (fsign W x); cbn [negb].
  - rewrite Z.add_nocarry_lxor by now apply land_mag_sign. rewrite Z.lxor_assoc, Z.lxor_nilpotent, Z.lxor_0_r. lia.
  - rewrite Z.add_0_r. symmetry. apply Z.add_nocarry_lxor. now apply land_mag_sign.
Qed.
Lemma fkey_mag x : fkey W (fmag W x) = fmag W x. Proof. unfold fkey. now rewrite fsign_mag, fmag_mag. Qed.
Lemma fnan_mag x : fnan W (fmag W x) = fnan W x. Proof. unfold fnan. now rewrite fmag_mag. Qed.
Lemma finf_word : word W (finf W). Proof. destruct f; unfold word; cbn; lia. Qed.
Lemma fkey_inf : fkey W (finf W) = finf W. Proof. destruct f; reflexivity. Qed.
Lemma fnan_inf : fnan W (finf W) = false. Proof. destruct f; reflexivity. Qed.
End Lane.

(** lane function of nextafter *)
Definition nxt (w a b : Z) : Z :=
  (if feq w a b then b
   else if fnan w a || fnan w b then Z.lor a b
   else if fmag w a =? 0 then (if fsign w b then 2 ^ (w - 1) else 0) + 1
   else (a + (if xorb (fsign w a) (fsign w b) || (fmag w a >? fmag w b) then -1 else 1)) mod 2 ^ w)%Z.
(** lane function of copysign, isnormal *)
Definition cps (w x s : Z) : Z := (fmag w x + (if fsign w s then 2 ^ (w - 1) else 0))%Z.
Definition nrm (w x : Z) : bool := (fnan w x || ((2 ^ mant w <=? fmag w x) && (fmag w x <? finf w)))%Z.

Lemma map_repeat' {A B} (f : A -> B) x n : map f (repeat x n) = repeat (f x) n.
Proof. induction n; cbn; congruence. Qed.
Lemma vmap2_diag' {A B} (f : A -> A -> B) a : vmap2 f a a = map (fun x => f x x) a.
Proof. induction a; cbn; congruence. Qed.
Section V.
Context (X : xty) (HX : xty_ok X) (HF : is_int (xT X) = false).
Local Notation w := (xw X).
Let f := xf X.
Lemma wf_eq : w = fw f. Proof. exact (xw_fw HX HF). Qed.
Lemma v_abs_f_lanes v : wfv X v -> v_abs_f X v = map (fmag w) v.
Proof.
  intros [L Hw]. unfold v_abs_f, v_and, v_fill. rewrite vmap2_repeat_r by exact L. apply map_ext. intros x. rewrite wf_eq. apply land_low.
Qed.
Lemma masksign_lanes v : wfv X v -> masksign X v = map (fun x => if fsign w x then 2 ^ (w - 1) else 0)%Z v.
Proof.
  intros [L Hw]. unfold masksign, v_and, v_fill. rewrite vmap2_repeat_r by exact L. apply map_ext_in. intros x Hx.
  pose proof (words_In _ Hw Hx) as Wx. rewrite wf_eq in *. now apply land_sign.
Qed.
Lemma fmag_w x : word w (fmag w x). Proof. rewrite wf_eq. apply fmag_word. Qed.
Lemma x_fabs_ok F a : shaped X a -> is_map1 X (fmag w) a (x_fabs X F a).
Proof. intros Ha. apply vz1_map; auto using fmag_w. intros v Hv. unfold v_abs. rewrite HF. now rewrite v_abs_f_lanes. Qed.
Lemma sgnb_word s : word w (if s : bool then 2 ^ (w - 1) else 0)%Z.
Proof. rewrite wf_eq. pose proof (@word_join f s 0) as H. rewrite Z.add_0_l in H. apply H. destruct f; cbn; lia. Qed.
Lemma cps_word x s : word w (cps w x s).
Proof. unfold cps. rewrite wf_eq. apply word_join, fmag_range. Qed.
Lemma x_copysign_ok a b : shaped X a -> shaped X b -> is_map2 X (cps w) a b (x_copysign X a b).
Proof.
  intros Ha Hb. apply vz2_map; auto using cps_word. intros u v Hu Hv. f_equal. unfold v_copysign.
  rewrite v_abs_f_lanes, masksign_lanes by auto. unfold v_or. rewrite vmap2_map. apply vmap2_ext. intros x y _ _. unfold cps. rewrite wf_eq.
  apply sign_mag_lor, fmag_range.
Qed.
Lemma x_copysign_s_ok a s : shaped X a -> word w s -> is_map1 X (fun x => cps w x s) a (x_copysign_s X a s).
Proof.
  intros Ha Hs. apply vz1_map; auto using cps_word. intros u Hu. f_equal. unfold v_copysign.
  assert (Wf : wfv X (v_fill X s)). { split. apply repeat_length. apply words_repeat; auto. }
  rewrite v_abs_f_lanes, masksign_lanes by auto. unfold v_fill, v_or. rewrite map_repeat'.
  rewrite vmap2_repeat_r by (rewrite map_length; apply Hu). rewrite map_map. apply map_ext. intros x. unfold cps. rewrite wf_eq.
  apply sign_mag_lor, fmag_range.
Qed.
Lemma x_isnan_ok a : shaped X a -> is_map1 X (fun x => mlane w (fnan w x)) a (x_isnan X a).
Proof.
  intros Ha. pose proof (w_pos HX). apply vz1_map; auto. 2:{ intros; apply word_mlane; lia. }
  intros v Hv. unfold isunord, cmp_ps. f_equal. rewrite vmap2_diag' . apply map_ext. intros x. now rewrite Bool.orb_diag.
Qed.
Lemma x_isinf_ok a : shaped X a -> is_map1 X (fun x => mlane w (fmag w x =? finf w)%Z) a (x_isinf X a).
Proof.
  intros Ha. pose proof (w_pos HX). apply vz1_map; auto. 2:{ intros; apply word_mlane; lia. }
  intros v Hv. rewrite v_abs_f_lanes by auto. unfold isinf_abs, cmp_ps, v_fill. rewrite vmap2_repeat_r by (rewrite map_length; apply Hv).
  rewrite map_map. f_equal. apply map_ext. intros x. f_equal. unfold feq. rewrite wf_eq, fnan_mag, fnan_inf, fkey_mag, fkey_inf.
  cbn [negb andb]. unfold fnan. destruct (fmag (fw f) x =? finf (fw f))%Z eqn:Q; [|now rewrite andb_false_r]. lia.
Qed.
Lemma x_isfinite_ok a : shaped X a -> is_map1 X (fun x => mlane w (fmag w x <? finf w)%Z) a (x_isfinite X a).
Proof.
  intros Ha. pose proof (w_pos HX). apply vz1_map; auto. 2:{ intros; apply word_mlane; lia. }
  intros v Hv. rewrite v_abs_f_lanes by auto. unfold isfinite_abs, cmp_ps, v_fill.
  destruct (avx (xc X)); (rewrite vmap2_repeat_r by (rewrite map_length; apply Hv));
  rewrite map_map; f_equal; apply map_ext; intros x; f_equal; unfold neq_oq, feq, flt; rewrite wf_eq, fnan_mag, fnan_inf, fkey_mag, fkey_inf;
  cbn [negb andb]; unfold fnan; lia.
Qed.
Lemma x_isnormal_ok a : shaped X a -> is_map1 X (fun x => mlane w (nrm w x)) a (x_isnormal X a).
Proof.
  intros Ha. pose proof (w_pos HX). apply vz1_map; auto. 2:{ intros; apply word_mlane; lia. }
  intros v Hv. rewrite v_abs_f_lanes by auto. unfold isnormal_abs, cmp_ps, v_fill, v_and.
  rewrite vmap2_repeat_r by (rewrite map_length; apply Hv). rewrite vmap2_repeat_l by (rewrite map_length; apply Hv).
  rewrite !map_map, vmap2_same. f_equal. apply map_ext; intros x. rewrite land_mlane. f_equal. unfold nrm, fle, flt.
  rewrite wf_eq, fnan_mag, fnan_inf, fkey_mag, fkey_inf.
  assert (M1 : fnan (fw f) (2 ^ mant (fw f)) = false) by (destruct f; reflexivity).
  assert (M2 : fkey (fw f) (2 ^ mant (fw f)) = (2 ^ mant (fw f))%Z) by (destruct f; reflexivity).
  rewrite M1, M2. destruct (fnan (fw f) x); cbn [negb andb orb]; lia.
Qed.
Lemma x_signbit_ok a : shaped X a -> is_map1 X (fun x => if fsign w x then 2 ^ (w - 1) else 0)%Z a (x_signbit X a).
Proof. intros Ha. apply vz1_map; auto. { intros v Hv. now rewrite masksign_lanes. } intros x _. apply sgnb_word. Qed.

(** *** quiet comparisons *)
Lemma cmp_flip (g : Z -> Z -> bool) a b K : shaped X a -> shaped X b ->
  (forall u v, wfv X u -> wfv X v -> K u v = cmp_ps w (fun x y => g y x) v u) ->
  is_map2 X (fun x y => mlane w (g x y)) a b (vz2 X (fun a b => Ok (K a b)) a b).
Proof.
  intros Ha Hb H. pose proof (w_pos HX). apply vz2_map; auto. 2:{ intros; apply word_mlane; lia. }
  intros u v Hu Hv. rewrite H by auto. f_equal. unfold cmp_ps. clear. revert v.
  induction u as [|x u IH]; intros [|y v]; cbn; auto. f_equal. apply IH.
Qed.
Lemma x_isgreater_ok a b : shaped X a -> shaped X b -> is_map2 X (fun x y => mlane w (flt w y x)) a b (x_isgreater X a b).
Proof. intros Ha Hb. apply cmp_flip; auto. Qed.
Lemma x_isgreaterequal_ok a b : shaped X a -> shaped X b -> is_map2 X (fun x y => mlane w (fle w y x)) a b (x_isgreaterequal X a b).
Proof. intros Ha Hb. apply cmp_flip; auto. Qed.
Lemma x_isless_ok a b : shaped X a -> shaped X b -> is_map2 X (fun x y => mlane w (flt w x y)) a b (x_isless X a b).
Proof.
  intros Ha Hb. apply cmp_flip; auto. intros u v Hu Hv. rewrite cmp_gt_lanes by auto. unfold cmp_ps. apply vmap2_ext.
  intros x y _ _. unfold lane_gt. unfold is_int in HF. destruct (ek (xT X)); [discriminate|]. reflexivity.
Qed.
Lemma x_islessequal_ok a b : shaped X a -> shaped X b -> is_map2 X (fun x y => mlane w (fle w x y)) a b (x_islessequal X a b).
Proof. intros Ha Hb. apply cmp_flip; auto. Qed.
Lemma x_islessgreater_ok a b : shaped X a -> shaped X b -> is_map2 X (fun x y => mlane w (fle w y x || fle w x y)) a b (x_islessgreater X a b).
Proof.
  intros Ha Hb. apply cmp_flip; auto. intros u v Hu Hv. unfold v_or, cmp_le_f, cmp_ge_f, cmp_ps. clear. revert u.
  induction v as [|x v IH]; intros [|y u]; cbn; auto. rewrite lor_mlane. f_equal. apply IH.
Qed.
Lemma x_isunordered_ok a b : shaped X a -> shaped X b -> is_map2 X (fun x y => mlane w (fnan w x || fnan w y)) a b (x_isunordered X a b).
Proof.
  intros Ha Hb. pose proof (w_pos HX). apply vz2_map; auto. intros; apply word_mlane; lia.
Qed.
End V.
