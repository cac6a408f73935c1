(** Proofs about the x86 backend, part 1: what each native helper does to the lanes. *)
From Coq Require Import ZifyBool ZifyNat.
From Verif Require Import Base Cxx Spec Generic GenericProofs X86Vec X86 X86Lemmas.
Set Implicit Arguments.

(** *** Arithmetic on lanes *)
Lemma pow2_gt1 w : (0 < w -> 1 < 2 ^ w)%Z.
Proof. intros. apply Z.pow_gt_1; lia. Qed.
Lemma ones_ones w : ones w = Z.ones w.
Proof. unfold ones. rewrite Z.ones_equiv. lia. Qed.
Lemma lxor_ones w x : (0 <= w)%Z -> word w x -> Z.lxor x (ones w) = (ones w - x)%Z.
Proof.
  intros Hw Hx. rewrite ones_ones.
  assert (E : Z.lxor x (Z.ones w) = Z.ldiff (Z.ones w) x).
  { apply Z.bits_inj'. intros n Hn. rewrite Z.lxor_spec, Z.ldiff_spec.
    destruct (Z.lt_ge_cases n w).
    - rewrite Z.ones_spec_low by lia. destruct (Z.testbit x n); auto.
    - rewrite Z.ones_spec_high by lia. rewrite word_bits with (w := w) by (auto; lia). auto. }
  rewrite E. symmetry. apply Z.sub_nocarry_ldiff.
  apply Z.bits_inj'. intros n Hn. rewrite Z.ldiff_spec, Z.bits_0.
  destruct (Z.lt_ge_cases n w).
  - rewrite Z.ones_spec_low by lia. destruct (Z.testbit x n); auto.
  - rewrite word_bits with (w := w) by (auto; lia). auto.
Qed.
Lemma lxor_mlane w a b : (0 <= w)%Z -> Z.lxor (mlane w a) (mlane w b) = mlane w (xorb a b).
Proof. intros. destruct a, b; simpl; rewrite ?Z.lxor_0_l, ?Z.lxor_0_r, ?Z.lxor_nilpotent; auto. Qed.
Lemma land_mlane w a b : Z.land (mlane w a) (mlane w b) = mlane w (a && b).
Proof. destruct a, b; simpl; rewrite ?Z.land_0_l, ?Z.land_0_r, ?Z.land_diag; auto. Qed.
Lemma lor_mlane w a b : Z.lor (mlane w a) (mlane w b) = mlane w (a || b).
Proof. destruct a, b; simpl; rewrite ?Z.lor_0_l, ?Z.lor_0_r, ?Z.lor_diag; auto. Qed.
Lemma ldiff_mlane w a b : (0 <= w)%Z -> Z.ldiff (mlane w a) (mlane w b) = mlane w (a && negb b).
Proof. intros. destruct a, b; simpl; rewrite ?Z.ldiff_0_l, ?Z.ldiff_0_r, ?Z.ldiff_diag; auto. Qed.
Lemma mlane_inj w a b : (0 < w)%Z -> (mlane w a =? mlane w b)%Z = eqb a b.
Proof.
  intros. assert (0 < ones w)%Z. { unfold ones. pose proof (@pow2_gt1 w). lia. }
  destruct a, b; cbn [mlane Bool.eqb]; lia.
Qed.
Lemma mlane_nz w b : (0 < w)%Z -> negb (mlane w b =? 0)%Z = b.
Proof.
  intros. assert (0 < ones w)%Z. { unfold ones. pose proof (@pow2_gt1 w). lia. }
  destruct b; cbn [mlane]; lia.
Qed.
Lemma word_land w x y : (0 <= w)%Z -> word w x -> word w y -> word w (Z.land x y).
Proof.
  intros Hw Hx Hy. rewrite <- (wrap_id w x Hx). unfold wrap.
  replace (Z.land (x mod 2 ^ w) y) with (wrap w (Z.land x y)); [apply wrap_word; auto|].
  apply Z.bits_inj'. intros n Hn. rewrite wrap_bits, !Z.land_spec by auto. fold (wrap w x). rewrite wrap_bits by auto.
  destruct (n <? w)%Z; auto.
Qed.
Lemma bits_word w x : (0 <= w)%Z -> (forall i, (w <= i)%Z -> Z.testbit x i = false) -> word w x.
Proof.
  intros Hw H. replace x with (wrap w x); [apply wrap_word; auto|].
  apply Z.bits_inj'. intros n Hn. rewrite wrap_bits by auto. destruct (Z.ltb_spec n w); auto. rewrite H; auto.
Qed.
Lemma word_lor w x y : (0 <= w)%Z -> word w x -> word w y -> word w (Z.lor x y).
Proof. intros. apply bits_word; auto. intros. rewrite Z.lor_spec, !word_bits with (w := w) by auto. auto. Qed.
Lemma word_lxor w x y : (0 <= w)%Z -> word w x -> word w y -> word w (Z.lxor x y).
Proof. intros. apply bits_word; auto. intros. rewrite Z.lxor_spec, !word_bits with (w := w) by auto. auto. Qed.
Lemma word_ldiff w x y : (0 <= w)%Z -> word w x -> word w (Z.ldiff x y).
Proof. intros. apply bits_word; auto. intros. rewrite Z.ldiff_spec, word_bits with (w := w) by auto. auto. Qed.
Lemma land_ones_word w x : (0 <= w)%Z -> word w x -> Z.land x (ones w) = x.
Proof. intros. rewrite ones_ones, Z.land_ones by auto. apply wrap_id; auto. Qed.
Lemma lor_ones_word w x : (0 <= w)%Z -> word w x -> Z.lor x (ones w) = ones w.
Proof.
  intros. apply Z.bits_inj'. intros n Hn. rewrite Z.lor_spec, ones_ones.
  destruct (Z.ltb_spec n w).
  - rewrite Z.ones_spec_low by lia. apply orb_true_r.
  - rewrite Z.ones_spec_high, word_bits with (w := w) by (auto; lia). auto.
Qed.
Lemma testbit_ones w i : (0 <= i < w)%Z -> Z.testbit (ones w) i = true.
Proof. intros. rewrite ones_ones. apply Z.ones_spec_low; auto. Qed.
Lemma testbit_mlane w b i : (0 <= i < w)%Z -> Z.testbit (mlane w b) i = b.
Proof. intros. destruct b; simpl; [apply testbit_ones; auto|apply Z.testbit_0_l]. Qed.

(** *** Comparisons *)
Definition lane_eq (X : xty) (x y : Z) : bool :=
  match ek (xT X) with KFloat => feq (xw X) x y | KInt _ => (x =? y)%Z end.
Definition lane_gt (X : xty) (x y : Z) : bool :=
  match ek (xT X) with KFloat => flt (xw X) y x | KInt _ => (sgn (xw X) x >? sgn (xw X) y)%Z end.

Lemma emu_eq x y : word 64 x -> word 64 y ->
  ((x mod 2 ^ 32 =? y mod 2 ^ 32) && (x / 2 ^ 32 =? y / 2 ^ 32) = (x =? y))%Z.
Proof. unfold word. intros. pose proof (Z.div_mod x (2 ^ 32)). pose proof (Z.div_mod y (2 ^ 32)). lia. Qed.
Lemma mlane_64 b : (mlane 32 b + 2 ^ 32 * mlane 32 b)%Z = mlane 64 b.
Proof. destruct b; reflexivity. Qed.
(** The emulated signed 64-bit comparison: cmp.hpp 97-99. *)
Lemma emu_gt x y : word 64 x -> word 64 y ->
  (Z.lor (Z.land (mlane 32 (x / 2 ^ 32 =? y / 2 ^ 32)) (wrap 64 (y - x) / 2 ^ 32))
        (mlane 32 (sgn 32 (x / 2 ^ 32) >? sgn 32 (y / 2 ^ 32)))
  = mlane 32 (sgn 64 x >? sgn 64 y))%Z.
Proof.
  unfold word. change (2 ^ 64)%Z with 18446744073709551616%Z. intros Hx Hy.
  unfold wrap, sgn. change (2 ^ 64)%Z with 18446744073709551616%Z. change (2 ^ 32)%Z with 4294967296%Z.
  change (2 ^ (64 - 1))%Z with 9223372036854775808%Z. change (2 ^ (32 - 1))%Z with 2147483648%Z.
  pose proof (Z.div_mod x 4294967296 ltac:(lia)) as Ex. pose proof (Z.mod_pos_bound x 4294967296 ltac:(lia)) as Bx.
  pose proof (Z.div_mod y 4294967296 ltac:(lia)) as Ey. pose proof (Z.mod_pos_bound y 4294967296 ltac:(lia)) as By.
  set (xh := (x / 4294967296)%Z) in *. set (xl := (x mod 4294967296)%Z) in *.
  set (yh := (y / 4294967296)%Z) in *. set (yl := (y mod 4294967296)%Z) in *.
  destruct (Z.eqb_spec xh yh) as [Eh|Eh].
  - replace ((if xh <? 2147483648 then xh else xh - 4294967296) >? (if yh <? 2147483648 then yh else yh - 4294967296))%Z with false
      by (rewrite Eh; lia).
    simpl (mlane 32 true). simpl (mlane 32 false). rewrite Z.lor_0_r.
    destruct (Z.lt_ge_cases yl xl).
    + replace ((y - x) mod 18446744073709551616)%Z with (18446744073709551616 + (yl - xl))%Z
        by (apply Z.mod_unique with (-1)%Z; lia).
      replace ((18446744073709551616 + (yl - xl)) / 4294967296)%Z with (ones 32)
        by (apply Z.div_unique with (4294967296 + (yl - xl))%Z; [lia|unfold ones; lia]).
      rewrite Z.land_diag. match goal with |- _ = mlane _ ?b => replace b with true; auto end.
      destruct (Z.ltb_spec x 9223372036854775808), (Z.ltb_spec y 9223372036854775808); lia.
    + replace ((y - x) mod 18446744073709551616)%Z with (yl - xl)%Z
        by (apply Z.mod_unique with 0%Z; lia).
      rewrite (Z.div_small (yl - xl)) by lia. rewrite Z.land_0_r.
      match goal with |- _ = mlane _ ?b => replace b with false; auto end.
      destruct (Z.ltb_spec x 9223372036854775808), (Z.ltb_spec y 9223372036854775808); lia.
  - simpl (mlane 32 false). rewrite Z.land_0_l, Z.lor_0_l. f_equal.
    destruct (Z.ltb_spec x 9223372036854775808), (Z.ltb_spec y 9223372036854775808),
      (Z.ltb_spec xh 2147483648), (Z.ltb_spec yh 2147483648); lia.
Qed.

Lemma wfv_two X v : xty_ok X -> wfv X v -> esz (xT X) = 8 -> sse41 (xc X) = false ->
  exists a b, v = [a; b] /\ word 64 a /\ word 64 b.
Proof.
  intros (Hc & HT & HN & Hv) [HL HW] H8 Hs.
  assert (xvs X = 16). { destruct Hv as [|[_ Ha]]; auto. destruct Hc as (_ & Hc & _). rewrite Hc in Hs; auto. discriminate. }
  unfold ext in HL. rewrite H, H8 in HL. change (16 / 8) with 2 in HL.
  assert (Ew : xw X = 64%Z) by (unfold xw, ew; rewrite H8; reflexivity). rewrite Ew in HW.
  destruct v as [|a [|b [|]]]; try discriminate. exists a, b. inversion HW as [|? ? H1 H2]. inversion H2; auto.
Qed.
Lemma xw_8 X : esz (xT X) = 8 -> xw X = 64%Z.
Proof. unfold xw, ew. intros ->. reflexivity. Qed.
Lemma muxed_sse41 X : xty_ok X -> muxed X = true -> sse41 (xc X) = true.
Proof.
  intros ((_ & H & _) & _ & _ & Hv) Hm. unfold muxed, is256 in Hm. destruct Hv as [Hv|[_ Ha]]; auto.
  rewrite Hv in Hm. simpl in Hm. rewrite !andb_false_r in Hm. discriminate.
Qed.

Ltac wfl H := let HL := fresh "L" in destruct H as [HL _].

Lemma cmp_eq_lanes X u v : xty_ok X -> wfv X u -> wfv X v ->
  cmp_eq X u v = vmap2 (fun x y => mlane (xw X) (lane_eq X x y)) u v.
Proof.
  intros HX Hu Hv. unfold cmp_eq.
  assert (HL : length u = length v) by (destruct Hu, Hv; congruence).
  destruct (muxed X) eqn:Em.
  - rewrite <- (mux2_vmap2 _ u v) by auto. apply muxed_sse41 in Em as Hs; auto.
    unfold mux2, cmp_eq128, lane_eq. rewrite Hs, andb_false_r. destruct (ek (xT X)); reflexivity.
  - unfold cmp_eq128, lane_eq. destruct (ek (xT X)) eqn:Ek; [|reflexivity].
    destruct ((esz (xT X) =? 8) && negb (sse41 (xc X))) eqn:E; [|reflexivity].
    apply andb_prop in E. destruct E as [E8 Es]. apply Nat.eqb_eq in E8. apply negb_true_iff in Es.
    destruct (wfv_two HX Hu E8 Es) as (a & b & -> & Ha & Hb).
    destruct (wfv_two HX Hv E8 Es) as (c & d & -> & Hc & Hd).
    rewrite (xw_8 _ E8). cbn [split2 cmpeq_epi vmap2 shuffle_epi32 nth v_and join2].
    rewrite !land_mlane.
    rewrite (andb_comm (a / 2 ^ 32 =? c / 2 ^ 32)%Z), (andb_comm (b / 2 ^ 32 =? d / 2 ^ 32)%Z).
    rewrite !emu_eq, !mlane_64 by auto. reflexivity.
Qed.
Lemma cmp_gt_lanes X u v : xty_ok X -> wfv X u -> wfv X v ->
  cmp_gt X u v = vmap2 (fun x y => mlane (xw X) (lane_gt X x y)) u v.
Proof.
  intros HX Hu Hv. unfold cmp_gt.
  assert (HL : length u = length v) by (destruct Hu, Hv; congruence).
  destruct (muxed X) eqn:Em.
  - rewrite <- (mux2_vmap2 _ u v) by auto. apply muxed_sse41 in Em as Hs; auto.
    unfold mux2, cmp_gt128, lane_gt. rewrite Hs, andb_false_r. destruct (ek (xT X)); reflexivity.
  - unfold cmp_gt128, lane_gt. destruct (ek (xT X)) eqn:Ek; [|reflexivity].
    destruct ((esz (xT X) =? 8) && negb (sse41 (xc X))) eqn:E; [|reflexivity].
    apply andb_prop in E. destruct E as [E8 Es]. apply Nat.eqb_eq in E8. apply negb_true_iff in Es.
    destruct (wfv_two HX Hu E8 Es) as (a & b & -> & Ha & Hb).
    destruct (wfv_two HX Hv E8 Es) as (c & d & -> & Hc & Hd).
    rewrite (xw_8 _ E8). cbn [split2 cmpeq_epi cmpgt_epi sub_epi vmap2 shuffle_epi32 nth v_and v_or join2].
    rewrite !emu_gt, !mlane_64 by auto. reflexivity.
Qed.
Lemma bit_not_lanes X v : xty_ok X -> wfv X v -> bit_not (xw X) v = map (fun x => ones (xw X) - x)%Z v.
Proof.
  intros HX [HL HW]. pose proof (xw_pos _ (proj1 (proj2 HX))). unfold bit_not, v_xor, setones. rewrite vmap2_repeat_r by auto.
  apply map_ext_in. intros x Hx. apply lxor_ones; [lia|]. eapply words_In; eauto.
Qed.
Lemma wfv_vmap2 X f u v : wfv X u -> wfv X v ->
  (forall x y, word (xw X) x -> word (xw X) y -> word (xw X) (f x y)) -> wfv X (vmap2 f u v).
Proof.
  intros [L1 W1] [L2 W2] H. split; [rewrite vmap2_length; lia|]. apply vmap2_Forall.
  intros x y Hx Hy. apply H; [exact (words_In _ W1 Hx)|exact (words_In _ W2 Hy)].
Qed.
Lemma wfv_map X f u : wfv X u -> (forall x, word (xw X) x -> word (xw X) (f x)) -> wfv X (map f u).
Proof.
  intros [L1 W1] H. split; [rewrite map_length; lia|]. apply Forall_map. eapply Forall_impl; [|exact W1]. auto.
Qed.
Lemma mlane_wf X (f : Z -> Z -> bool) u v : xty_ok X -> wfv X u -> wfv X v -> wfv X (vmap2 (fun x y => mlane (xw X) (f x y)) u v).
Proof. intros HX Hu Hv. pose proof (xw_pos _ (proj1 (proj2 HX))). apply wfv_vmap2; auto. intros; apply word_mlane; lia. Qed.
Lemma ones_sub_mlane w b : (ones w - mlane w b = mlane w (negb b))%Z.
Proof. destruct b; simpl; lia. Qed.
Lemma cmp_ne_lanes X u v : xty_ok X -> wfv X u -> wfv X v ->
  cmp_ne X u v = vmap2 (fun x y => mlane (xw X) (negb (lane_eq X x y))) u v.
Proof.
  intros HX Hu Hv. unfold cmp_ne. destruct (ek (xT X)) eqn:Ek.
  - rewrite cmp_eq_lanes, bit_not_lanes, map_vmap2 by auto using mlane_wf.
    apply vmap2_ext. intros. apply ones_sub_mlane.
  - unfold cmp_ps, lane_eq. rewrite Ek. reflexivity.
Qed.
(** truth of a mask lane, as cmp_ne(x, 0) sees it *)
Definition truth (X : xty) (l : Z) : bool := negb (lane_eq X l 0).
Lemma vmap2_zerov X (f : Z -> Z -> Z) v : wfv X v -> vmap2 f v (zerov X) = map (fun x => f x 0%Z) v.
Proof. intros [HL _]. apply vmap2_repeat_r; auto. Qed.
Lemma cmp_ne_zero X v : xty_ok X -> wfv X v -> cmp_ne X v (zerov X) = map (fun x => mlane (xw X) (truth X x)) v.
Proof. intros HX Hv. rewrite cmp_ne_lanes, vmap2_zerov by auto using zerov_wf. reflexivity. Qed.
Lemma cmp_eq_zero X v : xty_ok X -> wfv X v -> cmp_eq X v (zerov X) = map (fun x => mlane (xw X) (negb (truth X x))) v.
Proof.
  intros HX Hv. rewrite cmp_eq_lanes, vmap2_zerov by auto using zerov_wf.
  unfold truth. apply map_ext. intros; rewrite negb_involutive. reflexivity.
Qed.
Lemma truth_int X x : is_int (xT X) = true -> truth X x = negb (x =? 0)%Z.
Proof. unfold truth, lane_eq, is_int. destruct (ek (xT X)); auto; discriminate. Qed.
Lemma float_w X : ety_ok (xT X) -> is_int (xT X) = false -> (xw X = 32 \/ xw X = 64)%Z.
Proof. unfold ety_ok, is_int, xw, ew. destruct (ek (xT X)); [discriminate|]. lia. Qed.
Lemma truth_float X x : ety_ok (xT X) -> is_int (xT X) = false -> word (xw X) x ->
  truth X x = negb (x =? 0)%Z && negb (x =? 2 ^ (xw X - 1))%Z.
Proof.
  intros HT Hi Hx. unfold truth, lane_eq, is_int in *. destruct (ek (xT X)) eqn:Ek; [discriminate|].
  assert (Hw : (xw X = 32 \/ xw X = 64)%Z) by (apply float_w; auto; unfold is_int; rewrite Ek; auto).
  unfold feq, fnan, fkey, fsign, fmag, finf, mant, word in *.
  destruct Hw as [E|E]; rewrite E in *; simpl Z.eqb; cbv iota;
  change (2 ^ (32 - 1))%Z with 2147483648%Z in *; change (2 ^ (64 - 1))%Z with 9223372036854775808%Z in *;
  change (2 ^ 23)%Z with 8388608%Z in *; change (2 ^ 52)%Z with 4503599627370496%Z in *;
  change (2 ^ 32)%Z with 4294967296%Z in *; change (2 ^ 64)%Z with 18446744073709551616%Z in *;
  rewrite !(Z.mod_0_l) by lia;
  match goal with |- context [(x mod ?m)%Z] => pose proof (Z.mod_pos_bound x m ltac:(lia)); pose proof (Z.div_mod x m ltac:(lia));
    assert (0 <= x / m < 2)%Z by (split; [apply Z.div_pos; lia|apply Z.div_lt_upper_bound; lia]); set (x mod m)%Z in *; set (x / m)%Z in * end;
  repeat match goal with |- context [(?a <=? ?b)%Z] => destruct (Z.leb_spec a b) end;
  lia.
Qed.
Lemma truth_nz X x : ety_ok (xT X) -> word (xw X) x ->
  (is_int (xT X) = false -> x <> 2 ^ (xw X - 1))%Z -> truth X x = negb (x =? 0)%Z.
Proof.
  intros HT Hx H. destruct (is_int (xT X)) eqn:Ei; [apply truth_int; auto|].
  rewrite truth_float by auto. specialize (H eq_refl). lia.
Qed.
Lemma truth_ones X : xty_ok X -> truth X (ones (xw X)) = true.
Proof.
  intros (_ & HT & _). rewrite truth_nz; auto.
  - pose proof (xw_pos _ HT). unfold ones. pose proof (@pow2_gt1 (xw X)). lia.
  - apply word_ones. pose proof (xw_pos _ HT). lia.
  - intros _. pose proof (xw_pos _ HT). unfold ones.
    pose proof (pow2_pred (xw X)). pose proof (@pow2_gt1 (xw X - 1)). lia.
Qed.
Lemma truth_zero X : xty_ok X -> truth X 0 = false.
Proof.
  intros (_ & HT & _). destruct (is_int (xT X)) eqn:E; [rewrite truth_int; auto|].
  rewrite truth_float; auto. apply word_0. pose proof (xw_pos _ HT). lia.
Qed.

(** *** Tail masking *)
Definition sel (n : nat) (a b : vec) : vec := firstn n a ++ skipn n b.
Lemma sel_length n a b : length a = length b -> length (sel n a b) = length a.
Proof. intros H. unfold sel. rewrite app_length, firstn_length, skipn_length. lia. Qed.
Lemma get_sel n a b k : length a = length b -> get (sel n a b) k = if k <? n then get a k else get b k.
Proof.
  intros H. unfold sel. destruct (Nat.lt_ge_cases k (length a)) as [Hk|Hk].
  - destruct (Nat.ltb_spec k n).
    + rewrite get_app_l by (rewrite firstn_length; lia). apply get_firstn; lia.
    + rewrite get_app_r by (rewrite firstn_length; lia). rewrite firstn_length, get_skipn.
      f_equal. lia.
  - rewrite !(proj2 (get_ub _ _)); [destruct (k <? n); auto|lia..|].
    rewrite app_length, firstn_length, skipn_length. lia.
Qed.
Lemma sel_all n a b : length a = length b -> length a <= n -> sel n a b = a.
Proof. intros. unfold sel. rewrite firstn_all2, skipn_all2 by lia. apply app_nil_r. Qed.
Lemma vec_ext (a b : vec) : length a = length b -> (forall k, k < length a -> get a k = get b k) -> a = b.
Proof. intros HL H. apply list_get_ext; auto. Qed.
Lemma lanes_length e f : length (lanes e f) = e.
Proof. unfold lanes. rewrite map_length, seq_length. auto. Qed.
Lemma get_lanes e f k : k < e -> get (lanes e f) k = Ok (f k).
Proof. intros. unfold lanes. rewrite get_map, get_seq by auto. reflexivity. Qed.
Lemma get_nth_lt (a : vec) k : k < length a -> get a k = Ok (nth k a 0%Z).
Proof. intros H. rewrite get_nth with (d := 0%Z); auto. Qed.

Lemma words_nth w l k : words w l -> k < length l -> word w (nth k l 0%Z).
Proof. intros H Hk. apply (@words_get w l k); auto. apply get_nth_lt; auto. Qed.

Lemma testbit_tail e n k : (0 <= n)%Z -> k < e -> (n <= Z.of_nat e)%Z ->
  Z.testbit (2 ^ Z.of_nat e - 2 ^ n) (Z.of_nat k) = negb (Z.of_nat k <? n)%Z.
Proof.
  intros Hn Hk Hne. replace (2 ^ Z.of_nat e - 2 ^ n)%Z with (Z.ones (Z.of_nat e - n) * 2 ^ n)%Z.
  2:{ rewrite Z.ones_equiv. rewrite Z.mul_pred_l, <- Z.pow_add_r by lia. f_equal. f_equal. lia. }
  destruct (Z.ltb_spec (Z.of_nat k) n).
  - rewrite Z.mul_pow2_bits_low by lia. auto.
  - rewrite Z.mul_pow2_bits by lia. rewrite Z.ones_spec_low by lia. auto.
Qed.
Lemma blend_imm_sel a b n : length a = length b -> (0 <= n <= Z.of_nat (length a))%Z ->
  blend_imm (2 ^ Z.of_nat (length a) - 2 ^ n) a b = sel (Z.to_nat n) a b.
Proof.
  intros HL Hn. unfold blend_imm.
  assert (E : length (vmap3 (fun (k : nat) (x y : Z) => if Z.testbit (2 ^ Z.of_nat (length a) - 2 ^ n) (Z.of_nat k) then y else x)
     (seq 0 (length a)) a b) = length a) by (rewrite vmap3_length; rewrite ?seq_length; lia).
  apply vec_ext; rewrite E; [rewrite sel_length; auto|].
  intros k Hk. rewrite get_vmap3, get_seq, get_sel by auto. cbn [bind].
  rewrite !get_nth_lt by lia. cbn [bind]. rewrite testbit_tail by lia. simpl (0 + k).
  destruct (Z.ltb_spec (Z.of_nat k) n), (Nat.ltb_spec k (Z.to_nat n)); auto; lia.
Qed.
Lemma ldiff_0 x : Z.ldiff x 0 = x. Proof. apply Z.ldiff_0_r. Qed.
Lemma ldiff_ones w x : (0 <= w)%Z -> word w x -> Z.ldiff x (ones w) = 0%Z.
Proof.
  intros Hw Hx. apply Z.bits_inj'. intros n Hn. rewrite Z.ldiff_spec, Z.bits_0, ones_ones.
  destruct (Z.lt_ge_cases n w).
  - rewrite Z.ones_spec_low by lia. apply andb_false_r.
  - rewrite word_bits with (w := w) by auto. auto.
Qed.
Lemma blend_bits_sel w a b n : (0 <= w)%Z -> length a = length b -> words w a -> words w b -> (0 <= n)%Z ->
  blend_bits a b (tail_lanes (ones w) n (length a)) = sel (Z.to_nat n) a b.
Proof.
  intros Hw HL Wa Wb Hn. unfold blend_bits, v_or, v_andnot, v_and, tail_lanes.
  apply vec_ext.
  - rewrite sel_length, !vmap2_length, lanes_length by auto. lia.
  - intros k Hk. rewrite !vmap2_length, lanes_length in Hk.
    rewrite !get_vmap2, get_lanes, get_sel by (auto; lia). rewrite !get_nth_lt by lia. cbn [bind].
    assert (W1 : word w (nth k a 0%Z)) by (apply words_nth; auto; lia).
    assert (W2 : word w (nth k b 0%Z)) by (apply words_nth; auto; lia).
    destruct (Z.ltb_spec (Z.of_nat k) n), (Nat.ltb_spec k (Z.to_nat n)); try lia.
    + rewrite ldiff_0, Z.land_0_l, Z.lor_0_r. auto.
    + rewrite ldiff_ones, Z.lor_0_l, Z.land_comm, land_ones_word by auto. auto.
Qed.
Lemma blend_bytes_0 k a b : word (8 * Z.of_nat k) a -> blend_bytes k a b 0 = a.
Proof.
  revert a b; induction k; intros a b Ha.
  - simpl. unfold word in Ha. simpl in Ha. lia.
  - cbn [blend_bytes]. rewrite Z.testbit_0_l. change (0 / 256)%Z with 0%Z. rewrite IHk.
    + pose proof (Z.div_mod a 256). lia.
    + unfold word in *. split; [apply Z.div_pos; lia|]. apply Z.div_lt_upper_bound; [lia|].
      replace (8 * Z.of_nat (S k))%Z with (8 + 8 * Z.of_nat k)%Z in Ha by lia.
      rewrite Z.pow_add_r in Ha by lia. lia.
Qed.
Lemma blend_bytes_sel b8 (k : nat) a b m :
  (forall j, (j < k)%nat -> Z.testbit m (8 * Z.of_nat j + 7) = b8) ->
  word (8 * Z.of_nat k) a -> word (8 * Z.of_nat k) b -> blend_bytes k a b m = if b8 then b else a.
Proof.
  revert a b m; induction k; intros a b m Hm Ha Hb.
  - unfold word in *. simpl in *. destruct b8; lia.
  - cbn [blend_bytes]. rewrite IHk.
    + specialize (Hm 0 ltac:(lia)). simpl (8 * Z.of_nat 0 + 7)%Z in Hm. rewrite Hm.
      destruct b8; [pose proof (Z.div_mod b 256)|pose proof (Z.div_mod a 256)]; lia.
    + intros j Hj. change 256%Z with (2 ^ 8)%Z. rewrite Z.div_pow2_bits by lia.
      specialize (Hm (S j) ltac:(lia)). rewrite <- Hm. f_equal. lia.
    + unfold word in *. split; [apply Z.div_pos; lia|]. apply Z.div_lt_upper_bound; [lia|].
      replace (8 * Z.of_nat (S k))%Z with (8 + 8 * Z.of_nat k)%Z in Ha by lia.
      rewrite Z.pow_add_r in Ha by lia. lia.
    + unfold word in *. split; [apply Z.div_pos; lia|]. apply Z.div_lt_upper_bound; [lia|].
      replace (8 * Z.of_nat (S k))%Z with (8 + 8 * Z.of_nat k)%Z in Hb by lia.
      rewrite Z.pow_add_r in Hb by lia. lia.
Qed.
Lemma blend8_sel k m a b n : length a = length b ->
  words (8 * Z.of_nat k) a -> words (8 * Z.of_nat k) b -> (0 <= n)%Z ->
  (forall j, (j < k)%nat -> Z.testbit m (8 * Z.of_nat j + 7) = true) ->
  blendv_epi8 k a b (tail_lanes m n (length a)) = sel (Z.to_nat n) a b.
Proof.
  intros HL Wa Wb Hn Hm. unfold blendv_epi8, tail_lanes.
  apply vec_ext.
  - rewrite sel_length, vmap3_length; rewrite ?lanes_length; auto.
  - intros i Hi. rewrite vmap3_length in Hi by (rewrite ?lanes_length; auto).
    rewrite get_vmap3, get_lanes, get_sel by (auto; lia). rewrite !get_nth_lt by lia. cbn [bind].
    assert (W1 : word (8 * Z.of_nat k) (nth i a 0%Z)) by (apply words_nth; auto; lia).
    assert (W2 : word (8 * Z.of_nat k) (nth i b 0%Z)) by (apply words_nth; auto; lia).
    destruct (Z.ltb_spec (Z.of_nat i) n), (Nat.ltb_spec i (Z.to_nat n)); try lia.
    + rewrite blend_bytes_sel with (b8 := false); auto. intros; apply Z.testbit_0_l.
    + rewrite blend_bytes_sel with (b8 := true); auto.
Qed.

(** The configurations whose tail masking is right for a tail of [n] elements (the others: 256-bit vectors of
    1- and 2-byte elements built without AVX2, when the tail fits in the lower half). *)
Definition tail_safe (X : xty) (n : Z) : Prop :=
  is256 X = false \/ 2 < esz (xT X) \/ avx2 (xc X) = true \/ (Z.of_nat (ext X) < 2 * n)%Z.
Lemma in_switch_spec n e : in_switch n e = true <-> (1 <= n < Z.of_nat e)%Z.
Proof. unfold in_switch. lia. Qed.
Lemma maskblend128_sel X a b n : ety_ok (xT X) -> length a = length b -> words (xw X) a -> words (xw X) b -> (0 < n)%Z ->
  maskblend128 X a b n = sel (Z.to_nat n) a b.
Proof.
  intros HT HL Wa Wb Hn. pose proof (xw_pos _ HT). unfold maskblend128. destruct (in_switch n (length a)) eqn:Es.
  - apply in_switch_spec in Es. destruct (sse41 (xc X)).
    + destruct (Nat.eqb_spec (esz (xT X)) 1) as [E1|E1].
      * unfold xw, ew in *. rewrite E1 in *. apply blend8_sel; auto; [lia|]. intros j Hj. assert (j = 0) by lia; subst. reflexivity.
      * apply blend_imm_sel; auto; lia.
    + apply blend_bits_sel; auto; lia.
  - assert (Z.of_nat (length a) <= n)%Z by (unfold in_switch in Es; lia). rewrite sel_all by lia. auto.
Qed.
Lemma ext_half X : xty_ok X -> is256 X = true -> ext X = 16 / esz (xT X) + 16 / esz (xT X).
Proof.
  intros (_ & HT & _ & _) H. apply esz_cases in HT. unfold ext, is256 in *. apply Nat.eqb_eq in H. rewrite H.
  destruct HT as [E|[E|[E|E]]]; rewrite E; reflexivity.
Qed.
Lemma get_lo (a : vec) h k : length a = h + h -> k < h -> get a k = get (lo_half a) k.
Proof.
  intros H Hk. destruct (even_half a _ H). rewrite <- (halves a) at 1. rewrite get_app_l by lia. auto.
Qed.
Lemma get_hi (a : vec) h k : length a = h + h -> h <= k -> get a k = get (hi_half a) (k - h).
Proof.
  intros H Hk. destruct (even_half a _ H) as [El _]. rewrite <- (halves a) at 1. rewrite get_app_r by lia. rewrite El. auto.
Qed.
Lemma maskblend_sel X a b n : xty_ok X -> wfv X a -> wfv X b -> (0 < n < 2 ^ 64)%Z -> tail_safe X n ->
  maskblend X a b n = sel (Z.to_nat n) a b.
Proof.
  intros HX [La Wa] [Lb Wb] Hn Hsafe. pose proof HX as (_ & HT & _). pose proof (xw_pos _ HT).
  unfold maskblend. destruct (is256 X) eqn:E256; [|apply maskblend128_sel; auto; lia].
  unfold maskblend256. destruct (Nat.leb_spec (esz (xT X)) 2).
  - destruct (avx2 (xc X)) eqn:E2.
    + destruct (in_switch n (length a)) eqn:Es.
      * apply in_switch_spec in Es. unfold xw, ew in *.
        apply blend8_sel; auto; [lia|lia|]. intros j Hj.
        pose proof (esz_cases _ HT) as HS.
        destruct HS as [E|[E|[E|E]]]; rewrite E in *; try lia; simpl Nat.eqb; cbv iota.
        -- assert (j = 0) by lia; subst. reflexivity.
        -- assert (j = 0 \/ j = 1) as [-> | ->] by lia; reflexivity.
      * assert (Z.of_nat (length a) <= n)%Z by (unfold in_switch in Es; lia). rewrite sel_all by lia. auto.
    + destruct Hsafe as [Hs|[Hs|[Hs|Hs]]]; [congruence|lia|congruence|].
      pose proof (ext_half HX E256) as Eh. set (h := 16 / esz (xT X)) in *.
      assert (La' : length a = h + h) by lia. assert (Lb' : length b = h + h) by lia.
      destruct (even_half a _ La') as [Ll Lh]. destruct (even_half b _ Lb') as [Ll' Lh'].
      destruct (words_half Wa). destruct (words_half Wb).
      rewrite !maskblend128_sel; auto; try congruence; try lia; try (unfold wrap; rewrite Z.mod_small; lia).
      rewrite (@sel_all (Z.to_nat n)) by lia. unfold wrap. rewrite Z.mod_small by lia.
      apply vec_ext.
      * rewrite app_length, !sel_length by lia. lia.
      * intros k Hk. rewrite app_length, sel_length in Hk by lia. rewrite get_sel by lia.
        destruct (Nat.lt_ge_cases k h).
        -- rewrite get_app_l by lia. replace (k <? Z.to_nat n) with true by lia.
           rewrite (@get_lo a h) by lia. auto.
        -- rewrite get_app_r, get_sel by lia. rewrite (@get_hi a h), (@get_hi b h), Ll by lia.
           replace (k - h <? Z.to_nat (n - Z.of_nat h)) with (k <? Z.to_nat n) by lia. auto.
  - destruct (in_switch n (length a)) eqn:Es.
    + apply in_switch_spec in Es. apply blend_imm_sel; lia.
    + assert (Z.of_nat (length a) <= n)%Z by (unfold in_switch in Es; lia). rewrite sel_all by lia. auto.
Qed.
Lemma maskzero_sel X a n : xty_ok X -> wfv X a -> (0 < n < 2 ^ 64)%Z -> tail_safe X n ->
  maskzero X a n = sel (Z.to_nat n) a (zerov X).
Proof.
  intros HX Ha Hn Hsafe. pose proof HX as (_ & HT & _). pose proof (xw_pos _ HT).
  unfold maskzero. destruct (is256 X) eqn:E256; [apply maskblend_sel; auto using zerov_wf|].
  pose proof (zerov_wf HX) as [Lz _]. destruct Ha as [La Wa].
  destruct (in_switch n (length a)) eqn:Es.
  - apply in_switch_spec in Es. unfold v_and, head_lanes. apply vec_ext.
    + rewrite sel_length, vmap2_length, lanes_length by lia. lia.
    + intros k Hk. rewrite vmap2_length, lanes_length in Hk.
      rewrite get_vmap2, get_lanes, get_sel by lia. rewrite !get_nth_lt by lia. cbn [bind].
      assert (W1 : word (xw X) (nth k a 0%Z)) by (apply words_nth; auto; lia).
      destruct (Z.ltb_spec (Z.of_nat k) n), (Nat.ltb_spec k (Z.to_nat n)); try lia.
      * rewrite land_ones_word by (auto; lia). auto.
      * rewrite Z.land_0_r. unfold zerov, setzero. rewrite nth_repeat. auto.
  - assert (Z.of_nat (length a) <= n)%Z by (unfold in_switch in Es; lia). rewrite sel_all by lia. auto.
Qed.
Lemma maskone_sel X a n : xty_ok X -> wfv X a -> (0 < n < 2 ^ 64)%Z -> tail_safe X n ->
  maskone X a n = sel (Z.to_nat n) a (onesv X).
Proof.
  intros HX Ha Hn Hsafe. pose proof HX as (_ & HT & _). pose proof (xw_pos _ HT).
  unfold maskone. destruct (is256 X) eqn:E256; [apply maskblend_sel; auto using onesv_wf|].
  pose proof (onesv_wf HX) as [Lz _]. destruct Ha as [La Wa].
  destruct (in_switch n (length a)) eqn:Es.
  - apply in_switch_spec in Es. unfold v_or, tail_lanes. apply vec_ext.
    + rewrite sel_length, vmap2_length, lanes_length by lia. lia.
    + intros k Hk. rewrite vmap2_length, lanes_length in Hk.
      rewrite get_vmap2, get_lanes, get_sel by lia. rewrite !get_nth_lt by lia. cbn [bind].
      assert (W1 : word (xw X) (nth k a 0%Z)) by (apply words_nth; auto; lia).
      destruct (Z.ltb_spec (Z.of_nat k) n), (Nat.ltb_spec k (Z.to_nat n)); try lia.
      * rewrite Z.lor_0_r. auto.
      * rewrite lor_ones_word by (auto; lia). unfold onesv, setones.
        f_equal. symmetry. apply repeat_spec with (n := ext X). apply nth_In. rewrite repeat_length. lia.
  - assert (Z.of_nat (length a) <= n)%Z by (unfold in_switch in Es; lia). rewrite sel_all by lia. auto.
Qed.
