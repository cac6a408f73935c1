(** Reasoning about one lane of a kernel: [L X k v x] says that register [v] is well formed and holds [x] in lane [k];
    [LM X k m b] that [m] is a canonical mask register (every lane all-ones or all-zeros) holding [b] in lane [k]. *)
From Coq Require Import ZifyBool ZifyNat.
From Verif Require Import Base Cxx Spec X86Vec X86 X86Lemmas X86Proofs X86Ops X86Shift FMath.
Set Implicit Arguments.

Definition L (X : xty) (k : nat) (v : vec) (x : Z) : Prop := wfv X v /\ nth_error v k = Some x.
Definition LM (X : xty) (k : nat) (m : vec) (b : bool) : Prop :=
  exists bs, length bs = ext X /\ m = map (mlane (xw X)) bs /\ nth_error bs k = Some b.

Section Lane.
Context {X : xty} (HX : xty_ok X) {k : nat}.
Local Notation w := (xw X).
Local Notation L := (L X k).
Local Notation LM := (LM X k).
Local Lemma w_nn : (0 <= w)%Z. Proof. pose proof (w_pos HX). lia. Qed.

Lemma L_word v x : L v x -> word w x.
Proof. intros [[_ W] H]. exact (words_In _ W (nth_error_In _ _ H)). Qed.
Lemma L_wf v x : L v x -> wfv X v. Proof. intros [H _]. exact H. Qed.
Lemma L_lt v x : L v x -> k < ext X.
Proof. intros [[Hl _] H]. rewrite <- Hl. apply nth_error_Some. congruence. Qed.
Lemma L_fun v x y : L v x -> L v y -> x = y. Proof. intros [_ H] [_ H']. congruence. Qed.

Lemma l_map (g : Z -> Z) v x : (forall x, word w x -> word w (g x)) -> L v x -> L (map g v) (g x).
Proof.
  intros Hg [Hv H]. split. { apply wfv_map; auto. } now apply map_nth_error.
Qed.
Lemma l_vmap2 (g : Z -> Z -> Z) a b x y : (forall x y, word w x -> word w y -> word w (g x y)) -> L a x -> L b y -> L (vmap2 g a b) (g x y).
Proof. intros Hg [Ha H] [Hb H']. split. { apply wfv_vmap2; auto. } now apply nth_error_vmap2. Qed.

Lemma l_fill c : k < ext X -> word w c -> L (v_fill X c) c.
Proof.
  intros Hk Hc. split. { split. apply repeat_length. apply Forall_forall. intros y Hy. apply repeat_spec in Hy. now subst. }
  unfold v_fill. now apply nth_error_repeat.
Qed.
Lemma l_zero : k < ext X -> L (zerov X) 0%Z.
Proof. intros Hk. apply (@l_fill 0%Z); auto. apply word_0, w_nn. Qed.
Lemma l_and a b x y : L a x -> L b y -> L (v_and a b) (Z.land x y).
Proof. apply l_vmap2. intros. apply word_land; auto using w_nn. Qed.
Lemma l_or a b x y : L a x -> L b y -> L (v_or a b) (Z.lor x y).
Proof. apply l_vmap2. intros. apply word_lor; auto using w_nn. Qed.
Lemma l_xor a b x y : L a x -> L b y -> L (v_xor a b) (Z.lxor x y).
Proof. apply l_vmap2. intros. apply word_lxor; auto using w_nn. Qed.
Lemma l_andnot a b x y : L a x -> L b y -> L (v_andnot a b) (Z.ldiff y x).
Proof. apply (@l_vmap2 (fun a b => Z.ldiff b a)). intros. apply word_ldiff; auto using w_nn. Qed.
Lemma l_shiftl n v x : L v x -> L (c_shiftl X n v) (shl_bits w n x).
Proof. intros H. rewrite c_shiftl_lanes. apply l_map; auto. intros. apply shl_word; auto. Qed.
Lemma l_shiftr n v x : (0 <= n)%Z -> L v x -> L (c_shiftr X n v) (lshr_bits n x).
Proof. intros Hn H. rewrite c_shiftr_lanes. apply l_map; auto. intros. apply lshr_word; auto. Qed.


(** masks *)
Lemma LM_L m b : LM m b -> L m (mlane w b).
Proof.
  intros (bs & Hl & -> & H). split.
  - split. { now rewrite map_length. } apply Forall_map, Forall_forall. intros. apply word_mlane, w_nn.
  - now apply map_nth_error.
Qed.
Lemma vmap2_map2 {A} (f : Z -> Z -> A) (g h : bool -> Z) (p q : list bool) : vmap2 f (map g p) (map h q) = vmap2 (fun a b => f (g a) (h b)) p q.
Proof. revert q. induction p as [|a p IH]; intros [|b q]; cbn; auto. f_equal. auto. Qed.
Lemma vmap2_mapl {A B C D} (h : C -> D) (f : A -> B -> C) a b : map h (vmap2 f a b) = vmap2 (fun x y => h (f x y)) a b.
Proof. revert b. induction a as [|x a IH]; intros [|y b]; cbn; auto. f_equal. auto. Qed.
Lemma lm_vmap2 (g : Z -> Z -> bool) a b x y : L a x -> L b y -> LM (vmap2 (fun x y => mlane w (g x y)) a b) (g x y).
Proof.
  intros [[La _] Ha] [[Lb _] Hb]. exists (vmap2 g a b). repeat split.
  - rewrite vmap2_length. lia.
  - now rewrite vmap2_mapl.
  - now apply nth_error_vmap2.
Qed.
Lemma lm_eq a b x y : L a x -> L b y -> LM (cmp_eq X a b) (lane_eq X x y).
Proof. intros Ha Hb. rewrite cmp_eq_lanes by eauto using L_wf. now apply lm_vmap2. Qed.
Lemma lm_gt a b x y : L a x -> L b y -> LM (cmp_gt X a b) (lane_gt X x y).
Proof. intros Ha Hb. rewrite cmp_gt_lanes by eauto using L_wf. now apply lm_vmap2. Qed.
Lemma lm_cmp (g : Z -> Z -> bool) a b x y : L a x -> L b y -> LM (cmp_ps w g a b) (g x y).
Proof. intros Ha Hb. unfold cmp_ps. now apply lm_vmap2. Qed.
Lemma lm_unord a b x y : L a x -> L b y -> LM (isunord X a b) (fnan w x || fnan w y).
Proof. intros Ha Hb. unfold isunord. now apply (@lm_cmp (fun x y => fnan w x || fnan w y)). Qed.
Lemma mlane_or a b : Z.lor (mlane w a) (mlane w b) = mlane w (a || b).
Proof. pose proof w_nn. destruct a, b; cbn [mlane orb]; rewrite ?Z.lor_0_r, ?Z.lor_diag; auto. Qed.
Lemma mlane_and a b : Z.land (mlane w a) (mlane w b) = mlane w (a && b).
Proof. destruct a, b; cbn [mlane andb]; rewrite ?Z.land_0_r, ?Z.land_diag; auto. Qed.
Lemma mlane_diff a b : Z.ldiff (mlane w b) (mlane w a) = mlane w (negb a && b).
Proof. destruct a, b; cbn [mlane andb negb]; rewrite ?Z.ldiff_0_r, ?Z.ldiff_diag, ?Z.ldiff_0_l; auto. Qed.
Lemma lm_bool (f : Z -> Z -> Z) (g : bool -> bool -> bool) (Hfg : forall a b, f (mlane w a) (mlane w b) = mlane w (g a b)) m n a b :
  LM m a -> LM n b -> LM (vmap2 f m n) (g a b).
Proof.
  intros (p & Lp & -> & Hp) (q & Lq & -> & Hq). exists (vmap2 g p q). repeat split.
  - rewrite vmap2_length. lia.
  - rewrite vmap2_map2, vmap2_mapl. clear -Hfg. revert q. induction p as [|u p IH]; intros [|v q]; cbn; auto. now rewrite Hfg, IH.
  - now apply nth_error_vmap2.
Qed.
Lemma lm_or m n a b : LM m a -> LM n b -> LM (v_or m n) (a || b). Proof. apply lm_bool, mlane_or. Qed.
Lemma lm_and m n a b : LM m a -> LM n b -> LM (v_and m n) (a && b). Proof. apply lm_bool, mlane_and. Qed.
Lemma lm_andnot m n a b : LM m a -> LM n b -> LM (v_andnot m n) (negb a && b).
Proof. apply (@lm_bool (fun a b => Z.ldiff b a) (fun a b => negb a && b)). intros. apply mlane_diff. Qed.
(** selecting a value by a mask *)
Lemma land_mlane b x : word w x -> Z.land (mlane w b) x = if b then x else 0%Z.
Proof. intros Hx. rewrite Z.land_comm. destruct b; cbn [mlane]; [|apply Z.land_0_r]. apply land_ones_word; auto using w_nn. Qed.
Lemma ldiff_mlane b x : word w x -> Z.ldiff x (mlane w b) = if b then 0%Z else x.
Proof.
  intros Hx. destruct b; cbn [mlane]; [|apply Z.ldiff_0_r].
  rewrite <- (land_ones_word w_nn Hx) at 1. apply Z.bits_inj'. intros n Hn. rewrite Z.ldiff_spec, Z.land_spec, Z.bits_0. now destruct (Z.testbit x n), (Z.testbit (ones w) n).
Qed.
Lemma l_sel m b v x : LM m b -> L v x -> L (v_and m v) (if b then x else 0%Z).
Proof. intros Hm Hv. rewrite <- (land_mlane b (L_word Hv)). apply l_and; auto using LM_L. Qed.
Lemma l_selr m b v x : LM m b -> L v x -> L (v_and v m) (if b then x else 0%Z).
Proof. intros Hm Hv. rewrite <- (land_mlane b (L_word Hv)), Z.land_comm. apply l_and; auto using LM_L. Qed.
Lemma l_seln m b v x : LM m b -> L v x -> L (v_andnot m v) (if b then 0%Z else x).
Proof. intros Hm Hv. rewrite <- (ldiff_mlane b (L_word Hv)). apply l_andnot; auto using LM_L. Qed.
Lemma nth_error_vmap3 {A B C D} (f : A -> B -> C -> D) a b c i x y z :
  nth_error a i = Some x -> nth_error b i = Some y -> nth_error c i = Some z -> nth_error (vmap3 f a b c) i = Some (f x y z).
Proof.
  revert b c i. induction a as [|u a IH]; intros [|v b] [|t c] [|i]; cbn; try discriminate; intros; try congruence. eauto.
Qed.
Lemma l_blend a b m x y c : L a x -> L b y -> LM m c -> L (blendv X a b m) (if c then y else x).
Proof.
  intros [Wa Ha] [Wb Hb] (bs & Lbs & -> & Hc). rewrite blendv_canon by auto. split.
  - destruct Wa as [La Wa], Wb as [Lb Wb]. split. { rewrite vmap3_length; lia. }
    clear Ha Hb Hc. assert (E : length a = length bs) by lia. clear La Lb Lbs. revert b bs Wb E. induction Wa as [|u a Hu Wa IH]; intros [|v b] [|t bs] Wb E; cbn in *; try constructor; try lia.
    + inversion Wb; subst. now destruct t.
    + inversion Wb; subst. apply IH; auto.
  - exact (nth_error_vmap3 (fun x y (c : bool) => if c then y else x) _ _ _ _ Ha Hb Hc).
Qed.
(** [if (test_mask(m)) a = blendv(a, b, m)]: skipping the blend when no lane is selected changes nothing *)
Lemma test_none bs : test_mask X (map (mlane w) bs) = false -> Forall (fun b => b = false) bs.
Proof.
  pose proof (w_pos HX) as Hw. unfold test_mask. destruct (is256 X || sse41 (xc X)) eqn:E; intros H; apply Forall_forall; intros b Hb;
    destruct b; auto; exfalso; revert H; apply Bool.not_false_iff_true; apply existsb_exists; exists (mlane w true); (split; [now apply in_map|]).
  - apply mlane_nz. lia.
  - unfold byte_signs. apply existsb_exists. exists 0. split.
    + pose proof (esz_cases X (proj1 (proj2 HX))). apply in_seq. lia.
    + cbn [mlane]. rewrite ones_ones by lia. apply Z.ones_spec_high || apply Z.ones_spec_low.
      unfold xw, ew. pose proof (esz_cases X (proj1 (proj2 HX))). lia.
Qed.
Lemma l_ifblend a b m x y c : L a x -> L b y -> LM m c -> L (if test_mask X m then blendv X a b m else a) (if c then y else x).
Proof.
  intros Ha Hb Hm. destruct (test_mask X m) eqn:E. { now apply l_blend. }
  destruct Hm as (bs & Lbs & -> & Hc). apply test_none in E.
  rewrite (proj1 (Forall_forall _ _) E c (nth_error_In _ _ Hc)). exact Ha.
Qed.
End Lane.

(** A kernel that acts on each lane separately is the map of its lane function. *)
Lemma L_ext (X : xty) (u v : vec) : length u = ext X -> length v = ext X ->
  (forall k x, k < ext X -> nth_error u k = Some x -> nth_error v k = Some x) -> u = v.
Proof.
  intros Lu Lv H.
  revert v Lv Lu H. generalize (ext X) as n. induction u as [|a u IH]; intros n [|b v] Lv Lu H; cbn in *; try lia; auto.
  assert (E := H 0 a ltac:(lia) eq_refl). cbn in E. injection E as ->. f_equal. apply (IH (pred n)); try lia.
  intros j x Hj Hx. apply (H (S j) x); [lia|exact Hx].
Qed.
Lemma L_all X (HX : xty_ok X) a : wfv X a -> forall k, k < ext X -> exists x, L X k a x.
Proof.
  intros Ha k Hk. destruct (nth_error a k) as [x|] eqn:E. { exists x. now split. } apply nth_error_None in E. destruct Ha. lia.
Qed.
Lemma kernel1L X (HX : xty_ok X) (K : vec -> vec) (g : Z -> Z) :
  (forall k a x, k < ext X -> L X k a x -> L X k (K a) (g x)) -> forall a, wfv X a -> K a = map g a.
Proof.
  intros H a Ha. pose proof (ext_pos HX) as He.
  assert (LK : length (K a) = ext X). { destruct (L_all HX Ha He) as [x Hx]. exact (proj1 (proj1 (H _ _ _ He Hx))). }
  symmetry. apply (@L_ext X). { rewrite map_length. apply Ha. } { exact LK. }
  intros k y Hk Hy. destruct (L_all HX Ha Hk) as [x Hx]. rewrite (map_nth_error g k a (proj2 Hx)) in Hy. injection Hy as <-.
  exact (proj2 (H _ _ _ Hk Hx)).
Qed.
Lemma kernel2L X (HX : xty_ok X) (K : vec -> vec -> vec) (g : Z -> Z -> Z) :
  (forall k a b x y, k < ext X -> L X k a x -> L X k b y -> L X k (K a b) (g x y)) -> forall a b, wfv X a -> wfv X b -> K a b = vmap2 g a b.
Proof.
  intros H a b Ha Hb. pose proof (ext_pos HX) as He.
  assert (LK : length (K a b) = ext X).
  { destruct (L_all HX Ha He) as [x Hx], (L_all HX Hb He) as [y Hy]. exact (proj1 (proj1 (H _ _ _ _ _ He Hx Hy))). }
  symmetry. apply (@L_ext X). { rewrite vmap2_length. destruct Ha, Hb. lia. } { exact LK. }
  intros k z Hk Hz. destruct (L_all HX Ha Hk) as [x Hx], (L_all HX Hb Hk) as [y Hy].
  rewrite (nth_error_vmap2 g a b k (proj2 Hx) (proj2 Hy)) in Hz. injection Hz as <-.
  exact (proj2 (H _ _ _ _ _ Hk Hx Hy)).
Qed.

(** *** Float lanes, and the integer view of the same register ([as_int X]: same lanes, integer operations) *)
From Verif Require Import Fp FpLemmas FpOps FKern FMathProofs.
Section FLane.
Context {X : xty} (HX : xty_ok X) (HF : is_int (xT X) = false) {k : nat} (nn : nans).
Local Notation w := (xw X).
Local Notation f := (xf X).
Local Notation F := (ieee nn).
Local Notation L := (L X k).
Local Notation LM := (LM X k).
Lemma xw_f (x : Z) : word (fw f) x -> word w x. Proof. now rewrite (xw_fw HX HF). Qed.
Lemma f_xw (x : Z) : word w x -> word (fw f) x. Proof. now rewrite (xw_fw HX HF). Qed.
Lemma Lf_word v x : L v x -> word (fw f) x. Proof. intros H. apply f_xw. eapply L_word; eauto. Qed.
Lemma lf_add a b x y : L a x -> L b y -> L (v_add X F a b) (fadd nn f x y).
Proof.
  intros Ha Hb. rewrite v_add_lanes by eauto using L_wf. unfold lane_add. rewrite HF.
  apply (@l_vmap2 X k (fun x y => f_add F w x y)); auto. intros. apply xw_f, fadd_word.
Qed.
Lemma lf_sub a b x y : L a x -> L b y -> L (v_sub X F a b) (fsub nn f x y).
Proof.
  intros Ha Hb. rewrite v_sub_lanes by eauto using L_wf. unfold lane_sub. rewrite HF.
  apply (@l_vmap2 X k (fun x y => f_sub F w x y)); auto. intros. apply xw_f, fsub_word.
Qed.
Lemma lf_mul a b x y : L a x -> L b y -> L (v_mul X F a b) (fmul nn f x y).
Proof.
  intros Ha Hb. rewrite v_mul_lanes by eauto using L_wf. unfold lane_mul. rewrite HF.
  apply (@l_vmap2 X k (fun x y => f_mul F w x y)); auto. intros. apply xw_f, fmul_word.
Qed.
Lemma lf_div a b x y : L a x -> L b y -> L (v_div_f X F a b) (fdiv nn f x y).
Proof. intros Ha Hb. apply (@l_vmap2 X k (fun x y => f_div F w x y)); auto. intros. apply xw_f. apply enc_word. Qed.
Lemma lmf_eq a b x y : L a x -> L b y -> LM (cmp_eq X a b) (feq w x y).
Proof.
  intros Ha Hb. pose proof (lm_eq HX Ha Hb) as H. unfold lane_eq in H. unfold is_int in HF. destruct (ek (xT X)); [discriminate|exact H].
Qed.
Lemma lmf_gt a b x y : L a x -> L b y -> LM (cmp_gt X a b) (flt w y x).
Proof.
  intros Ha Hb. pose proof (lm_gt HX Ha Hb) as H. unfold lane_gt in H. unfold is_int in HF. destruct (ek (xT X)); [discriminate|exact H].
Qed.
Lemma lf_abs v x : L v x -> L (v_abs_f X v) (fmag w x).
Proof.
  intros Hv. unfold v_abs_f. pose proof (L_lt Hv) as Hk.
  assert (E : Z.land x (2 ^ (w - 1) - 1) = fmag w x). { rewrite (xw_fw HX HF). apply land_low. }
  rewrite <- E. apply l_and; auto. apply l_fill; auto. unfold word. pose proof (w_pos HX). rewrite (pow2_pred w) by lia. pose proof (pow2_pos (w - 1)). lia.
Qed.
Lemma lf_sign v x : L v x -> L (masksign X v) (sbit f (fsign w x)).
Proof.
  intros Hv. unfold masksign. pose proof (L_lt Hv) as Hk.
  assert (E : Z.land x (2 ^ (w - 1)) = sbit f (fsign w x)).
  { unfold sbit. rewrite (xw_fw HX HF) in *. apply land_sign. rewrite <- (xw_fw HX HF). eapply L_word; eauto. }
  rewrite <- E. apply l_and; auto. apply l_fill; auto. unfold word. pose proof (w_pos HX). rewrite (pow2_pred w) by lia. pose proof (pow2_pos (w - 1)). lia.
Qed.

Local Notation J := (as_int X).
Lemma li_fill c : k < ext X -> word w c -> L (v_fill J c) c.
Proof. exact (@l_fill J k c). Qed.
Lemma li_zero : k < ext X -> L (zerov J) 0%Z. Proof. exact (@l_zero J (as_int_ok HX) k). Qed.
Lemma li_add G a b x y : L a x -> L b y -> L (v_add J G a b) ((x + y) mod 2 ^ w)%Z.
Proof.
  intros Ha Hb. rewrite (v_add_lanes (X := J)); [|exact (L_wf Ha)|exact (L_wf Hb)].
  apply (@l_vmap2 J k (fun x y => (x + y) mod 2 ^ w)%Z); auto. intros. exact (mod_word HX _).
Qed.
Lemma li_sub G a b x y : L a x -> L b y -> L (v_sub J G a b) ((x - y) mod 2 ^ w)%Z.
Proof.
  intros Ha Hb. rewrite (v_sub_lanes (X := J)); [|exact (L_wf Ha)|exact (L_wf Hb)].
  apply (@l_vmap2 J k (fun x y => (x - y) mod 2 ^ w)%Z); auto. intros. exact (mod_word HX _).
Qed.
Lemma lmi_eq a b x y : L a x -> L b y -> LM (cmp_eq J a b) (x =? y)%Z.
Proof. exact (@lm_eq J (as_int_ok HX) k a b x y). Qed.
Lemma lmi_gt a b x y : L a x -> L b y -> LM (cmp_gt J a b) (sgn w x >? sgn w y)%Z.
Proof. exact (@lm_gt J (as_int_ok HX) k a b x y). Qed.
Lemma li_shiftl n v x : L v x -> L (c_shiftl J n v) (shl_bits w n x).
Proof. exact (@l_shiftl J (as_int_ok HX) k n v x). Qed.
Lemma li_shiftr n v x : (0 <= n)%Z -> L v x -> L (c_shiftr J n v) (lshr_bits n x).
Proof. exact (@l_shiftr J k n v x). Qed.
Lemma li_blend a b m x y c : L a x -> L b y -> LM m c -> L (blendv J a b m) (if c then y else x).
Proof. exact (@l_blend J (as_int_ok HX) k a b m x y c). Qed.
Lemma li_ifblend a b m x y c : L a x -> L b y -> LM m c -> L (if test_mask J m then blendv J a b m else a) (if c then y else x).
Proof. exact (@l_ifblend J (as_int_ok HX) k a b m x y c). Qed.
End FLane.
