(** Proofs about the x86 backend, part 3: operators, comparisons, masks, blend, loads and stores. *)
From Coq Require Import ZifyBool ZifyNat.
From Verif Require Import Base Cxx Spec Generic GenericProofs X86Vec X86 X86Lemmas X86Proofs.
Set Implicit Arguments.

(** *** From lane functions to the elementwise specification *)
Lemma nth_error_vmap2 {A B C} (f : A -> B -> C) a b i x y :
  nth_error a i = Some x -> nth_error b i = Some y -> nth_error (vmap2 f a b) i = Some (f x y).
Proof.
  intros Ha Hb. apply get_ok. rewrite get_vmap2. apply get_ok in Ha, Hb. rewrite Ha, Hb. reflexivity.
Qed.
Lemma nth_error_vmap3 {A B C D} (f : A -> B -> C -> D) a b c i x y z :
  nth_error a i = Some x -> nth_error b i = Some y -> nth_error c i = Some z -> nth_error (vmap3 f a b c) i = Some (f x y z).
Proof.
  intros Ha Hb Hc. apply get_ok. rewrite get_vmap3. apply get_ok in Ha, Hb, Hc. rewrite Ha, Hb, Hc. reflexivity.
Qed.
Lemma vmap2_elementwise {A B C} N (f : A -> B -> C) a b : length a = N -> length b = N ->
  elementwise2 N (fun x y => Ok (f x y)) a b (Ok (vmap2 f a b)).
Proof.
  intros Ha Hb. split; [rewrite vmap2_length; lia|]. intros i x y Hi Hx Hy. exists (f x y). split; auto using nth_error_vmap2.
Qed.
Lemma vmap3_elementwise {A B C D} N (f : A -> B -> C -> D) a b c : length a = N -> length b = N -> length c = N ->
  elementwise3 N (fun x y z => Ok (f x y z)) a b c (Ok (vmap3 f a b c)).
Proof.
  intros Ha Hb Hc. split; [rewrite vmap3_length; lia|]. intros i x y z Hi Hx Hy Hz. exists (f x y z). split; auto using nth_error_vmap3.
Qed.
Lemma map_elementwise {A B} N (f : A -> B) a : length a = N -> elementwise1 N (fun x => Ok (f x)) a (Ok (map f a)).
Proof.
  intros Ha. split; [rewrite map_length; auto|]. intros i x Hi Hx. exists (f x). split; auto. rewrite nth_error_map, Hx. auto.
Qed.

(** The shape of every result below: defined, well formed, and elementwise on elements 0..N-1. *)
Definition is_map1 (X : xty) (f : Z -> Z) (a : list vec) (r : res (list vec)) : Prop :=
  exists v, r = Ok v /\ shaped X v /\ elementwise1 (xN X) (fun x => Ok (f x)) (elems X a) (Ok (elems X v)).
Definition is_map2 (X : xty) (f : Z -> Z -> Z) (a b : list vec) (r : res (list vec)) : Prop :=
  exists v, r = Ok v /\ shaped X v /\ elementwise2 (xN X) (fun x y => Ok (f x y)) (elems X a) (elems X b) (Ok (elems X v)).
Definition is_map3 (X : xty) (f : Z -> Z -> Z -> Z) (a b c : list vec) (r : res (list vec)) : Prop :=
  exists v, r = Ok v /\ shaped X v /\ elementwise3 (xN X) (fun x y z => Ok (f x y z)) (elems X a) (elems X b) (elems X c) (Ok (elems X v)).

Lemma vz1_map X f g a : xty_ok X -> shaped X a ->
  (forall v, wfv X v -> f v = Ok (map g v)) -> (forall x, word (xw X) x -> word (xw X) (g x)) -> is_map1 X g a (vz1 X f a).
Proof.
  intros HX Ha Hf Hg. destruct (vz1_spec f g HX Ha Hf Hg) as (r & E & S & M). exists r. split; auto. split; auto.
  rewrite M. apply map_elementwise. apply elems_length; auto.
Qed.
Lemma vz2_map X f g a b : xty_ok X -> shaped X a -> shaped X b ->
  (forall u v, wfv X u -> wfv X v -> f u v = Ok (vmap2 g u v)) ->
  (forall x y, word (xw X) x -> word (xw X) y -> word (xw X) (g x y)) -> is_map2 X g a b (vz2 X f a b).
Proof.
  intros HX Ha Hb Hf Hg. destruct (vz2_spec f g HX Ha Hb Hf Hg) as (r & E & S & M). exists r. split; auto. split; auto.
  rewrite M. apply vmap2_elementwise; apply elems_length; auto.
Qed.
Lemma vz3_map X f g a b c : xty_ok X -> shaped X a -> shaped X b -> shaped X c ->
  (forall u v t, wfv X u -> wfv X v -> wfv X t -> f u v t = Ok (vmap3 g u v t)) ->
  (forall x y z, word (xw X) x -> word (xw X) y -> word (xw X) z -> word (xw X) (g x y z)) -> is_map3 X g a b c (vz3 X f a b c).
Proof.
  intros HX Ha Hb Hc Hf Hg. destruct (vz3_spec f g HX Ha Hb Hc Hf Hg) as (r & E & S & M). exists r. split; auto. split; auto.
  rewrite M. apply vmap3_elementwise; apply elems_length; auto.
Qed.

Section WF.
Context (X : xty) (HX : xty_ok X).
Let w := xw X.
Lemma w_pos : (8 <= w)%Z.
Proof. apply xw_pos. apply HX. Qed.
Lemma wf_len u v : wfv X u -> wfv X v -> length u = length v.
Proof. intros [? _] [? _]. congruence. Qed.

(** *** C13: arithmetic.  [F] is any lane arithmetic that returns lanes. *)
Definition fops_ok (F : fops) : Prop :=
  forall x y, word w x -> word w y ->
    word w (f_add F w x y) /\ word w (f_sub F w x y) /\ word w (f_mul F w x y) /\ word w (f_div F w x y).
(** lane meaning of the operators *)
Definition lane_add (F : fops) (x y : Z) : Z := if is_int (xT X) then ((x + y) mod 2 ^ w)%Z else f_add F w x y.
Definition lane_sub (F : fops) (x y : Z) : Z := if is_int (xT X) then ((x - y) mod 2 ^ w)%Z else f_sub F w x y.
Definition lane_mul (F : fops) (x y : Z) : Z := if is_int (xT X) then ((x * y) mod 2 ^ w)%Z else f_mul F w x y.
Definition lane_neg (x : Z) : Z := if is_int (xT X) then ((- x) mod 2 ^ w)%Z else Z.lxor x (2 ^ (w - 1)).

Lemma mod_word x : word w (x mod 2 ^ w).
Proof. pose proof w_pos. apply wrap_word. lia. Qed.
Lemma lane_add_word F x y : fops_ok F -> word w x -> word w y -> word w (lane_add F x y).
Proof. intros HF Hx Hy. unfold lane_add. destruct (is_int (xT X)); [apply mod_word|apply HF; auto]. Qed.
Lemma lane_sub_word F x y : fops_ok F -> word w x -> word w y -> word w (lane_sub F x y).
Proof. intros HF Hx Hy. unfold lane_sub. destruct (is_int (xT X)); [apply mod_word|apply HF; auto]. Qed.
Lemma lane_mul_word F x y : fops_ok F -> word w x -> word w y -> word w (lane_mul F x y).
Proof. intros HF Hx Hy. unfold lane_mul. destruct (is_int (xT X)); [apply mod_word|apply HF; auto]. Qed.
Lemma signbit_word : word w (2 ^ (w - 1)).
Proof. pose proof w_pos. unfold word. rewrite (pow2_pred w) by lia. pose proof (pow2_pos (w - 1)). lia. Qed.
Lemma lane_neg_word x : word w x -> word w (lane_neg x).
Proof.
  intros Hx. unfold lane_neg. destruct (is_int (xT X)); [apply mod_word|]. pose proof w_pos.
  apply word_lxor; auto using signbit_word; lia.
Qed.
Lemma v_add_lanes F u v : wfv X u -> wfv X v -> v_add X F u v = vmap2 (lane_add F) u v.
Proof.
  intros Hu Hv. pose proof (wf_len Hu Hv). unfold v_add, lane_add, is_int. destruct (ek (xT X)); [|reflexivity].
  destruct (muxed X); [|reflexivity]. unfold add_epi. rewrite mux2_vmap2 by auto. reflexivity.
Qed.
Lemma v_sub_lanes F u v : wfv X u -> wfv X v -> v_sub X F u v = vmap2 (lane_sub F) u v.
Proof.
  intros Hu Hv. pose proof (wf_len Hu Hv). unfold v_sub, lane_sub, is_int. destruct (ek (xT X)); [|reflexivity].
  destruct (muxed X); [|reflexivity]. unfold sub_epi. rewrite mux2_vmap2 by auto. reflexivity.
Qed.
Lemma v_mul_lanes F u v : wfv X u -> wfv X v -> v_mul X F u v = vmap2 (lane_mul F) u v.
Proof.
  intros Hu Hv. pose proof (wf_len Hu Hv). unfold v_mul, lane_mul, is_int. destruct (ek (xT X)); [|reflexivity].
  destruct (muxed X); [|reflexivity]. unfold mullo_epi. rewrite mux2_vmap2 by auto. reflexivity.
Qed.
Lemma v_neg_lanes F u : wfv X u -> v_neg X F u = map lane_neg u.
Proof.
  intros Hu. pose proof Hu as [HL _]. unfold v_neg, lane_neg. destruct (ek (xT X)) eqn:Ek.
  - rewrite v_sub_lanes by auto using zerov_wf. unfold zerov, setzero. rewrite vmap2_repeat_l by auto.
    unfold lane_sub, is_int. rewrite Ek. apply map_ext. intros. f_equal.
  - unfold v_xor. rewrite vmap2_repeat_r by auto. unfold is_int. rewrite Ek. reflexivity.
Qed.
Lemma v_fill_wf b : word w b -> wfv X (v_fill X b).
Proof. intros. split; [apply repeat_length|apply words_repeat; auto]. Qed.

Lemma x_add_ok F a b : fops_ok F -> shaped X a -> shaped X b -> is_map2 X (lane_add F) a b (x_add X F a b).
Proof. intros. apply vz2_map; auto; [intros; f_equal; apply v_add_lanes; auto|]. intros; apply lane_add_word; auto. Qed.
Lemma x_sub_ok F a b : fops_ok F -> shaped X a -> shaped X b -> is_map2 X (lane_sub F) a b (x_sub X F a b).
Proof. intros. apply vz2_map; auto; [intros; f_equal; apply v_sub_lanes; auto|]. intros; apply lane_sub_word; auto. Qed.
Lemma x_add_s_ok F a b : fops_ok F -> shaped X a -> word w b -> is_map1 X (fun x => lane_add F x b) a (x_add_s X F a b).
Proof.
  intros. apply vz1_map; auto.
  - intros v Hv. rewrite v_add_lanes by auto using v_fill_wf. unfold v_fill. rewrite vmap2_repeat_r by apply Hv. auto.
  - intros; apply lane_add_word; auto.
Qed.
Lemma x_sub_s_ok F a b : fops_ok F -> shaped X a -> word w b -> is_map1 X (fun x => lane_sub F x b) a (x_sub_s X F a b).
Proof.
  intros. apply vz1_map; auto.
  - intros v Hv. rewrite v_sub_lanes by auto using v_fill_wf. unfold v_fill. rewrite vmap2_repeat_r by apply Hv. auto.
  - intros; apply lane_sub_word; auto.
Qed.
Lemma x_neg_ok F a : shaped X a -> is_map1 X lane_neg a (x_neg X F a).
Proof. intros. apply vz1_map; auto; [intros; f_equal; apply v_neg_lanes; auto|apply lane_neg_word]. Qed.
Lemma x_mul_f_ok F a b : fops_ok F -> shaped X a -> shaped X b -> is_map2 X (lane_mul F) a b (x_mul_f X F a b).
Proof. intros. apply vz2_map; auto; [intros; f_equal; apply v_mul_lanes; auto|]. intros; apply lane_mul_word; auto. Qed.
Lemma x_mul_fs_ok F a b : fops_ok F -> shaped X a -> word w b -> is_map1 X (fun x => lane_mul F x b) a (x_mul_fs X F a b).
Proof.
  intros. apply vz1_map; auto.
  - intros v Hv. rewrite v_mul_lanes by auto using v_fill_wf. unfold v_fill. rewrite vmap2_repeat_r by apply Hv. auto.
  - intros; apply lane_mul_word; auto.
Qed.
Lemma x_div_f_ok F a b : fops_ok F -> shaped X a -> shaped X b -> is_map2 X (f_div F w) a b (x_div_f X F a b).
Proof. intros HF Ha Hb. apply vz2_map; auto. intros; apply HF; auto. Qed.
Lemma x_div_fs_ok F a b : fops_ok F -> shaped X a -> word w b -> is_map1 X (fun x => f_div F w x b) a (x_div_fs X F a b).
Proof.
  intros HF Ha Hb. apply vz1_map; auto.
  - intros v Hv. unfold v_div_f, v_fill. rewrite vmap2_repeat_r by apply Hv. auto.
  - intros; apply HF; auto.
Qed.

(** bitwise *)
Lemma x_and_ok a b : shaped X a -> shaped X b -> is_map2 X Z.land a b (x_and X a b).
Proof. intros. apply vz2_map; auto. pose proof w_pos. intros; apply word_land; auto. fold w; lia. Qed.
Lemma x_or_ok a b : shaped X a -> shaped X b -> is_map2 X Z.lor a b (x_or X a b).
Proof. intros. apply vz2_map; auto. pose proof w_pos. intros; apply word_lor; auto. fold w; lia. Qed.
Lemma x_xor_ok a b : shaped X a -> shaped X b -> is_map2 X Z.lxor a b (x_xor X a b).
Proof. intros. apply vz2_map; auto. pose proof w_pos. intros; apply word_lxor; auto. fold w; lia. Qed.
Lemma x_and_s_ok a b : shaped X a -> word w b -> is_map1 X (fun x => Z.land x b) a (x_and_s X a b).
Proof.
  intros. apply vz1_map; auto.
  - intros v Hv. unfold v_fill, v_and. rewrite vmap2_repeat_r by apply Hv. auto.
  - pose proof w_pos. intros; apply word_land; auto. fold w; lia.
Qed.
Lemma x_or_s_ok a b : shaped X a -> word w b -> is_map1 X (fun x => Z.lor x b) a (x_or_s X a b).
Proof.
  intros. apply vz1_map; auto.
  - intros v Hv. unfold v_fill, v_or. rewrite vmap2_repeat_r by apply Hv. auto.
  - pose proof w_pos. intros; apply word_lor; auto. fold w; lia.
Qed.
Lemma x_xor_s_ok a b : shaped X a -> word w b -> is_map1 X (fun x => Z.lxor x b) a (x_xor_s X a b).
Proof.
  intros. apply vz1_map; auto.
  - intros v Hv. unfold v_fill, v_xor. rewrite vmap2_repeat_r by apply Hv. auto.
  - pose proof w_pos. intros; apply word_lxor; auto. fold w; lia.
Qed.

(** *** C17: comparisons *)
Lemma cmp_map (g : Z -> Z -> bool) f a b : shaped X a -> shaped X b ->
  (forall u v, wfv X u -> wfv X v -> f u v = vmap2 (fun x y => mlane w (g x y)) u v) ->
  is_map2 X (fun x y => mlane w (g x y)) a b (vz2 X (fun a b => Ok (f a b)) a b).
Proof.
  intros Ha Hb Hf. apply vz2_map; auto.
  - intros; rewrite Hf by auto. reflexivity.
  - pose proof w_pos. intros; apply word_mlane. fold w; lia.
Qed.
Lemma x_eq_ok a b : shaped X a -> shaped X b -> is_map2 X (fun x y => mlane w (lane_eq X x y)) a b (x_eq X a b).
Proof. intros. apply cmp_map; auto. intros; apply cmp_eq_lanes; auto. Qed.
Lemma x_ne_ok a b : shaped X a -> shaped X b -> is_map2 X (fun x y => mlane w (negb (lane_eq X x y))) a b (x_ne X a b).
Proof. intros. apply (@cmp_map (fun x y => negb (lane_eq X x y)) (cmp_ne X)); auto. intros; apply cmp_ne_lanes; auto. Qed.
Lemma x_gt_ok a b : shaped X a -> shaped X b -> is_map2 X (fun x y => mlane w (lane_gt X x y)) a b (x_gt_i X a b).
Proof. intros. apply cmp_map; auto. intros; apply cmp_gt_lanes; auto. Qed.
Lemma x_gt_f_ok a b : shaped X a -> shaped X b -> is_map2 X (fun x y => mlane w (lane_gt X x y)) a b (x_gt_f X a b).
Proof. intros. apply cmp_map; auto. intros; apply cmp_gt_lanes; auto. Qed.
Lemma x_lt_f_ok a b : shaped X a -> shaped X b -> is_map2 X (fun x y => mlane w (flt w x y)) a b (x_lt_f X a b).
Proof. intros. apply (@cmp_map (flt w) (cmp_lt_f X)); auto. Qed.
Lemma x_ge_f_ok a b : shaped X a -> shaped X b -> is_map2 X (fun x y => mlane w (fle w y x)) a b (x_ge_f X a b).
Proof. intros. apply (@cmp_map (fun x y => fle w y x) (cmp_ge_f X)); auto. Qed.
Lemma x_le_f_ok a b : shaped X a -> shaped X b -> is_map2 X (fun x y => mlane w (fle w x y)) a b (x_le_f X a b).
Proof. intros. apply (@cmp_map (fle w) (cmp_le_f X)); auto. Qed.
Lemma x_lnot_ok a : shaped X a -> is_map1 X (fun x => mlane w (lane_eq X x 0)) a (x_lnot X a).
Proof.
  intros. apply vz1_map; auto.
  - intros v Hv. rewrite cmp_eq_lanes, vmap2_zerov by auto using zerov_wf. auto.
  - pose proof w_pos. intros; apply word_mlane. fold w; lia.
Qed.

(** *** C14 / C21: masks *)
Lemma as_int_ok : xty_ok (as_int X).
Proof.
  destruct HX as (Hc & HT & HN & Hv). unfold as_int. repeat split; auto; simpl.
  - apply Hc. - apply Hc. - apply Hc. - apply Hc.
  - unfold ety_ok. simpl. apply esz_cases; auto.
  - lia. - lia.
Qed.
Lemma mask_eq_lanes u v : wfv X u -> wfv X v -> mask_eq X u v = vmap2 (fun x y => mlane w (x =? y)%Z) u v.
Proof. intros Hu Hv. unfold mask_eq. rewrite cmp_eq_lanes; auto using as_int_ok. Qed.
Lemma mask_eq_zero v : wfv X v -> mask_eq X v (zerov X) = map (fun x => mlane w (x =? 0)%Z) v.
Proof. intros Hv. rewrite mask_eq_lanes by auto using zerov_wf. apply vmap2_zerov; auto. Qed.

Lemma blendv_canon (a b : vec) (bs : list bool) : wfv X a -> wfv X b -> length bs = ext X ->
  blendv X a b (map (mlane w) bs) = vmap3 (fun x y (c : bool) => if c then y else x) a b bs.
Proof.
  intros [La Wa] [Lb Wb] LB. pose proof w_pos as Hw. pose proof HX as (Hc & HT & _ & Hv).
  assert (Lm : length (map (mlane w) bs) = ext X) by (rewrite map_length; auto).
  assert (VM : forall (f : Z -> Z -> Z -> Z), (forall x y c, word w x -> word w y -> f x y (mlane w c) = if c then y else x) ->
     forall a b bs, words w a -> words w b -> vmap3 f a b (map (mlane w) bs) = vmap3 (fun x y (c : bool) => if c then y else x) a b bs).
  { clear. intros f Hf a. induction a; intros [|y b] [|c bs] W1 W2; simpl; auto. inversion W1; inversion W2; subst.
    f_equal; auto. }
  assert (B8 : forall x y c, word w x -> word w y -> blend_bytes (esz (xT X)) x y (mlane w c) = if c then y else x).
  { intros x y c Hx Hy. apply blend_bytes_sel; auto. intros j Hj. apply testbit_mlane. unfold w, xw, ew. lia. }
  assert (BS : forall x y c, word w x -> word w y -> (if Z.testbit (mlane w c) (w - 1) then y else x) = if c then y else x).
  { intros. rewrite testbit_mlane by lia. auto. }
  assert (E128 : forall a b bs, length a = length b -> length b = length bs -> words w a -> words w b ->
     blendv128 X a b (map (mlane w) bs) = vmap3 (fun x y (c : bool) => if c then y else x) a b bs).
  { clear a b bs La Wa Lb Wb LB Lm. intros a b bs L1 L2 W1 W2. unfold blendv128. destruct (sse41 (xc X)).
    - destruct (esz (xT X) <=? 2); [apply VM; auto|]. unfold blendv_sign. fold w. apply VM; auto.
    - unfold blend_bits, v_or, v_andnot, v_and. clear VM B8 BS. revert b bs L1 L2 W1 W2.
      induction a as [|x a IH]; intros [|y b] [|c bs] L1 L2 W1 W2; simpl in *; try lia; auto.
      inversion W1; inversion W2; subst. rewrite IH by auto. f_equal. destruct c; simpl mlane.
      + rewrite ldiff_ones, Z.lor_0_l, Z.land_comm, land_ones_word by (auto; lia). auto.
      + rewrite ldiff_0, Z.land_0_l, Z.lor_0_r. auto. }
  unfold blendv. destruct (is256 X) eqn:E2; [|apply E128; auto; lia].
  destruct (is_int (xT X)); [|unfold blendv_sign; fold w; apply VM; auto].
  destruct (avx2 (xc X)); [apply VM; auto|].
  unfold mux3. pose proof (ext_half HX E2) as Eh. set (h := 16 / esz (xT X)) in *.
  destruct (even_half a h) as [A1 A2]; [lia|]. destruct (even_half b h) as [B1 B2]; [lia|].
  destruct (words_half Wa). destruct (words_half Wb).
  assert (LH : lo_half (map (mlane w) bs) = map (mlane w) (firstn h bs) /\ hi_half (map (mlane w) bs) = map (mlane w) (skipn h bs)).
  { unfold lo_half, hi_half. rewrite map_length, LB, Eh. replace ((h + h) / 2) with h.
    - split; [apply firstn_map|apply skipn_map].
    - replace (h + h) with (h * 2) by lia. rewrite Nat.div_mul; lia. }
  destruct LH as [-> ->]. rewrite !E128; auto; try lia.
  - rewrite <- vmap3_app; rewrite ?firstn_length; try lia. rewrite !halves, firstn_skipn. auto.
  - rewrite skipn_length. lia.
  - rewrite firstn_length. lia.
Qed.
(** blend(m, a, b): a where the mask lane is non-zero (any representation of true), else b. *)
Lemma x_blend_ok m a b : shaped X m -> shaped X a -> shaped X b ->
  is_map3 X (fun l x y => if (l =? 0)%Z then y else x) m a b (x_blend X m a b).
Proof.
  intros Hm Ha Hb. apply vz3_map; auto.
  - intros vm va vb Wm Wa Wb. cbv zeta. apply f_equal.
    assert (E : mask_eq X vm (zerov X) = map (mlane w) (map (fun x => (x =? 0)%Z) vm)) by (rewrite mask_eq_zero, map_map; auto).
    rewrite E. rewrite blendv_canon by (auto; rewrite map_length; apply Wm).
    clear E. destruct Wm as [Lm _], Wa as [La _], Wb as [Lb _]. revert vm va vb Lm La Lb. generalize (ext X). clear.
    intros e vm. revert e. induction vm; intros e [|x va] [|y vb] H1 H2 H3; simpl in *; try lia; auto.
    f_equal. apply (IHvm (pred e)); lia.
  - intros x y z Hx Hy Hz. destruct (x =? 0)%Z; auto.
Qed.
Lemma mask_and_ok a b : shaped X a -> shaped X b -> is_map2 X Z.land a b (mask_and X a b).
Proof. apply x_and_ok. Qed.
Lemma mask_or_ok a b : shaped X a -> shaped X b -> is_map2 X Z.lor a b (mask_or X a b).
Proof. apply x_or_ok. Qed.
Lemma mask_xor_ok a b : shaped X a -> shaped X b -> is_map2 X Z.lxor a b (mask_xor X a b).
Proof. apply x_xor_ok. Qed.
Lemma mask_not_ok a : shaped X a -> is_map1 X (fun x => ones w - x)%Z a (mask_not X a).
Proof.
  intros. apply vz1_map; auto.
  - intros v Hv. rewrite bit_not_lanes by auto. auto.
  - intros x Hx. unfold word, ones in *. fold w. fold w in Hx. lia.
Qed.
Lemma mask_meq_ok a b : shaped X a -> shaped X b -> is_map2 X (fun x y => mlane w (x =? y)%Z) a b (mask_meq X a b).
Proof. intros. apply (@cmp_map Z.eqb (mask_eq X)); auto. intros; apply mask_eq_lanes; auto. Qed.

(** is_map composition *)
Lemma is_map1_elems f a r : shaped X a -> is_map1 X f a r -> exists v, r = Ok v /\ shaped X v /\ elems X v = map f (elems X a).
Proof.
  intros Ha (v & E & S & M). exists v. split; auto. split; auto. destruct M as [L M].
  apply list_get_ext; [rewrite map_length, L, elems_length; auto|].
  intros i Hi. rewrite get_map. pose proof (elems_length HX Ha) as LA.
  destruct (get_lt_ok (elems X a) i) as [x Hx]; [lia|]. rewrite Hx. simpl. apply get_ok in Hx.
  destruct (M i x ltac:(lia) Hx) as (y & Hy & G). inversion Hy; subst. apply get_ok. auto.
Qed.
Lemma is_map2_elems f a b r : shaped X a -> shaped X b -> is_map2 X f a b r ->
  exists v, r = Ok v /\ shaped X v /\ elems X v = vmap2 f (elems X a) (elems X b).
Proof.
  intros Ha Hb (v & E & S & M). exists v. split; auto. split; auto. destruct M as [L M].
  pose proof (elems_length HX Ha) as LA. pose proof (elems_length HX Hb) as LB.
  apply list_get_ext; [rewrite vmap2_length, LA, LB, L; lia|].
  intros i Hi. rewrite get_vmap2.
  destruct (get_lt_ok (elems X a) i) as [x Hx]; [lia|]. destruct (get_lt_ok (elems X b) i) as [y Hy]; [lia|].
  rewrite Hx, Hy. simpl. apply get_ok in Hx, Hy.
  destruct (M i x y ltac:(lia) Hx Hy) as (z & Hz & G). inversion Hz; subst. apply get_ok. auto.
Qed.
Lemma elems_is_map1 f a v : shaped X a -> shaped X v -> elems X v = map f (elems X a) -> is_map1 X f a (Ok v).
Proof.
  intros Ha Hv E. exists v. split; auto. split; auto. rewrite E. apply map_elementwise. apply elems_length; auto.
Qed.
Lemma elems_is_map2 f a b v : shaped X a -> shaped X b -> shaped X v -> elems X v = vmap2 f (elems X a) (elems X b) -> is_map2 X f a b (Ok v).
Proof.
  intros Ha Hb Hv E. exists v. split; auto. split; auto. rewrite E. apply vmap2_elementwise; apply elems_length; auto.
Qed.
Lemma mask_mne_ok a b : shaped X a -> shaped X b -> is_map2 X (fun x y => mlane w (negb (x =? y)%Z)) a b (mask_mne X a b).
Proof.
  intros Ha Hb. unfold mask_mne. destruct (is_map2_elems Ha Hb (mask_meq_ok Ha Hb)) as (r & E & S & M). rewrite E. cbn [bind].
  destruct (is_map1_elems S (mask_not_ok S)) as (r' & E' & S' & M'). unfold mask_lnot. rewrite E'.
  apply elems_is_map2; auto. rewrite M', M, map_vmap2. apply vmap2_ext. intros. apply ones_sub_mlane.
Qed.
Lemma elems_zeros : elems X (zeros X) = repeat 0%Z (xN X).
Proof. apply elems_repeat; auto. Qed.
Lemma mask_lor_ok a b : shaped X a -> shaped X b ->
  is_map2 X (fun x y => mlane w (negb (x =? 0)%Z || negb (y =? 0)%Z)) a b (mask_lor X a b).
Proof.
  intros Ha Hb. unfold mask_lor. destruct (is_map2_elems Ha Hb (mask_or_ok Ha Hb)) as (r & E & S & M). rewrite E. cbn [bind].
  assert (SZ : shaped X (zeros X)) by (apply zeros_shaped; auto).
  destruct (is_map2_elems S SZ (mask_mne_ok S SZ)) as (r' & E' & S' & M'). rewrite E'.
  apply elems_is_map2; auto. rewrite M', M, elems_zeros.
  rewrite vmap2_repeat_r by (rewrite vmap2_length, !elems_length; auto; lia).
  rewrite map_vmap2. apply vmap2_ext. intros x y Hx Hy. f_equal.
  assert (Wx : word w x) by (eapply words_In; [apply elems_words; exact Ha|auto]).
  assert (Wy : word w y) by (eapply words_In; [apply elems_words; exact Hb|auto]).
  unfold word in *. pose proof (Z.lor_eq_0_iff x y). lia.
Qed.
(** [res] starts at zero and bits are only ever cleared: the result is zero whatever the operands are *)
Lemma mask_land_zero a b : shaped X a -> shaped X b -> mask_land X a b = Ok (zeros X).
Proof.
  intros Ha Hb. unfold mask_land.
  destruct (@for_up_inv (list vec) (fun j r => r = zeros X) 0 (dsz X) (fun i r =>
    res0 <- get r i;; va <- get a i;; vb <- get b i;;
    let res1 := v_andnot (cmp_eq X va (zerov X)) res0 in
    let res2 := v_andnot (cmp_eq X vb (zerov X)) res1 in
    set r i res2) (zeros X)) as (s & E & P); [lia|reflexivity| |subst s; exact E].
  intros j t Hj ->. unfold zeros at 1. rewrite get_repeat by lia.
  destruct (get_shaped Ha (i := j)) as (u & Gu & Wu); [lia|]. destruct (get_shaped Hb (i := j)) as (v & Gv & Wv); [lia|].
  rewrite Gu, Gv. cbn [bind]. cbv zeta.
  assert (Z0 : forall m : vec, length m = ext X -> v_andnot m (zerov X) = zerov X).
  { intros m Hm. unfold v_andnot, zerov, setzero. rewrite vmap2_repeat_r by auto.
    rewrite <- Hm. generalize m. clear. intros m. induction m; simpl; auto. f_equal; auto using Z.ldiff_0_l. }
  rewrite !Z0 by (rewrite cmp_eq_zero, map_length by auto; first [apply Wu|apply Wv]).
  destruct (set_lt_ok (zeros X) j (zerov X)) as [r Hr]; [rewrite zeros_length; lia|].
  exists r. split; auto. apply list_get_ext; [eapply set_length; eauto|]. intros i Hi. apply set_ok_iff in Hr.
  destruct Hr as (_ & H1 & H2 & H3). assert (Hi' : i < dsz X) by (rewrite H1, zeros_length in Hi; lia).
  destruct (Nat.eq_dec i j) as [->|Hne].
  - rewrite H2. unfold zeros. rewrite get_repeat by auto. auto.
  - apply H3. auto.
Qed.
End WF.
