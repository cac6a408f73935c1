(** C23: every instruction and every structured program gives the same elements on both backends. *)
From Coq Require Import ZifyBool ZifyNat.
From Verif Require Import Base Cxx Spec Generic GenericProofs X86Vec X86 X86Lemmas X86Proofs X86Masks X86Ops X86Mem X86Shift X86MaskSpec Alias X86Scalar X86Prog.
Set Implicit Arguments.

Lemma Forall2_get {A B} (R : A -> B -> Prop) l l' i y : Forall2 R l l' -> get l' i = Ok y -> exists x, get l i = Ok x /\ R x y.
Proof.
  intros H. revert i. induction H as [|a b l l' Hab H IH]; intros i G; [apply get_ok in G; destruct i; discriminate|].
  destruct i as [|i]; [rewrite get_cons_0 in *; inversion G; subst; eauto|]. rewrite get_cons_S in *. auto.
Qed.
Lemma Forall2_len {A B} (R : A -> B -> Prop) l l' : Forall2 R l l' -> length l = length l'.
Proof. induction 1; cbn; auto. Qed.
Lemma Forall2_nth {A B} (R : A -> B -> Prop) l l' : length l = length l' ->
  (forall i x y, nth_error l i = Some x -> nth_error l' i = Some y -> R x y) -> Forall2 R l l'.
Proof.
  revert l'. induction l as [|a l IH]; intros [|b l'] HL H; cbn in HL; try lia; constructor.
  - apply (H 0); auto.
  - apply IH; [lia|]. intros i. apply (H (S i)).
Qed.
Lemma Forall2_set {A B} (R : A -> B -> Prop) l l' i x y r' : Forall2 R l l' -> R x y -> set l' i y = Ok r' ->
  exists r, set l i x = Ok r /\ Forall2 R r r'.
Proof.
  intros H Hxy Hs. pose proof (Forall2_len H) as HL. apply set_ok_iff in Hs. destruct Hs as (S1 & S2 & S3 & S4).
  destruct (set_lt_ok l i x) as [r Hr]; [lia|]. exists r. split; auto. apply set_ok_iff in Hr. destruct Hr as (R1 & R2 & R3 & R4).
  apply Forall2_nth; [lia|]. intros j u v Hu Hv. apply get_ok in Hu, Hv. destruct (Nat.eq_dec j i) as [->|Hne]; [congruence|].
  rewrite R4 in Hu by auto. rewrite S4 in Hv by auto. destruct (Forall2_get _ H Hv) as (u' & Hu' & HR). congruence.
Qed.

Section WF.
Context (X : xty) (HX : xty_ok X) (F : fops) (HF : fops_ok X F).
Let w := xw X.
Let N := xN X.
Let T := xT X.
Let sc := xscalar T F.
Let t := ity_of T.

Definition simv (rx : res (list vec)) (rg : res (list Z)) : Prop := forall g, rg = Ok g -> exists x, rx = Ok x /\ same_vec X x g.
Definition simm (rx : res (list vec)) (rg : res (list bool)) : Prop := forall g, rg = Ok g -> exists x, rx = Ok x /\ same_mask X x g.

Lemma list_eq_nth {A} (l l' : list A) n : length l = n -> length l' = n -> (forall i, i < n -> nth_error l i = nth_error l' i) -> l = l'.
Proof. intros H1 H2 H. apply nth_ext_list; [lia|]. intros; apply H; lia. Qed.
Lemma nth_lt {A} (l : list A) i n : length l = n -> i < n -> exists x, nth_error l i = Some x.
Proof. intros H Hi. destruct (nth_error l i) eqn:E; eauto. apply nth_error_None in E. lia. Qed.
Lemma nth_word a i x : shaped X a -> nth_error (elems X a) i = Some x -> word w x.
Proof. intros Ha H. eapply words_In; [apply (elems_words Ha)|]. eapply nth_error_In; eauto. Qed.

Lemma sim_map1 f h a r rg : shaped X a -> is_map1 X f a r -> elementwise1 N h (elems X a) rg ->
  (forall x z, word w x -> h x = Ok z -> z = f x) -> simv r rg.
Proof.
  intros Ha (v & -> & Sv & Lv & Ev) Hg Hf g ->. exists v. split; auto. split; auto. destruct Hg as [Lg Eg].
  apply (@list_eq_nth _ _ _ N); auto. intros i Hi. destruct (@nth_lt _ _ i N (elems_length HX Ha) Hi) as [x Hx].
  destruct (Ev i x Hi Hx) as (y & E1 & ->). destruct (Eg i x Hi Hx) as (z & E2 & ->). inversion E1. f_equal. symmetry. eauto using nth_word.
Qed.
Lemma sim_map2 f h a b r rg : shaped X a -> shaped X b -> is_map2 X f a b r -> elementwise2 N h (elems X a) (elems X b) rg ->
  (forall x y z, word w x -> word w y -> h x y = Ok z -> z = f x y) -> simv r rg.
Proof.
  intros Ha Hb (v & -> & Sv & Lv & Ev) Hg Hf g ->. exists v. split; auto. split; auto. destruct Hg as [Lg Eg].
  apply (@list_eq_nth _ _ _ N); auto. intros i Hi. destruct (@nth_lt _ _ i N (elems_length HX Ha) Hi) as [x Hx].
  destruct (@nth_lt _ _ i N (elems_length HX Hb) Hi) as [y Hy].
  destruct (Ev i x y Hi Hx Hy) as (z & E1 & ->). destruct (Eg i x y Hi Hx Hy) as (z' & E2 & ->). inversion E1. f_equal. symmetry. eauto using nth_word.
Qed.
Lemma sim_ew1 f a r rg : shaped X a -> ew1 X f a r -> elementwise1 N f (elems X a) rg -> simv r rg.
Proof.
  intros Ha [S E] Hg g ->. destruct Hg as [Lg Eg]. destruct r as [v|].
  - exists v. split; auto. split; auto. destruct E as [Lv Ev]. apply (@list_eq_nth _ _ _ N); auto.
    intros i Hi. destruct (@nth_lt _ _ i N (elems_length HX Ha) Hi) as [x Hx].
    destruct (Ev i x Hi Hx) as (y & E1 & ->). destruct (Eg i x Hi Hx) as (z & E2 & ->). congruence.
  - destruct E as (i & x & Hi & Hx & U). destruct (Eg i x Hi Hx) as (z & E2 & _). congruence.
Qed.
Lemma sim_ew2 f a b r rg : shaped X a -> shaped X b -> ew2 X f a b r -> elementwise2 N f (elems X a) (elems X b) rg -> simv r rg.
Proof.
  intros Ha Hb [S E] Hg g ->. destruct Hg as [Lg Eg]. destruct r as [v|].
  - exists v. split; auto. split; auto. destruct E as [Lv Ev]. apply (@list_eq_nth _ _ _ N); auto.
    intros i Hi. destruct (@nth_lt _ _ i N (elems_length HX Ha) Hi) as [x Hx]. destruct (@nth_lt _ _ i N (elems_length HX Hb) Hi) as [y Hy].
    destruct (Ev i x y Hi Hx Hy) as (z & E1 & ->). destruct (Eg i x y Hi Hx Hy) as (z' & E2 & ->). congruence.
  - destruct E as (i & x & y & Hi & Hx & Hy & U). destruct (Eg i x y Hi Hx Hy) as (z & E2 & _). congruence.
Qed.
Lemma sim_mask1 p q a r rg : shaped X a -> is_map1 X (fun x => mlane w (p x)) a r -> elementwise1 N (fun x => Ok (q x)) (elems X a) rg ->
  (forall x, word w x -> p x = q x) -> simm r rg.
Proof.
  intros Ha (v & -> & Sv & Lv & Ev) Hg Hf g ->. exists v. split; auto. split; auto. destruct Hg as [Lg Eg].
  apply (@list_eq_nth _ _ _ N); auto; [rewrite map_length; auto|]. intros i Hi. destruct (@nth_lt _ _ i N (elems_length HX Ha) Hi) as [x Hx].
  destruct (Ev i x Hi Hx) as (y & E1 & ->). destruct (Eg i x Hi Hx) as (z & E2 & E3). rewrite nth_error_map, E3. inversion E1; inversion E2.
  cbn. do 2 f_equal. eauto using nth_word.
Qed.
Lemma sim_mask2 p q a b r rg : shaped X a -> shaped X b -> is_map2 X (fun x y => mlane w (p x y)) a b r ->
  elementwise2 N (fun x y => Ok (q x y)) (elems X a) (elems X b) rg ->
  (forall x y, word w x -> word w y -> p x y = q x y) -> simm r rg.
Proof.
  intros Ha Hb (v & -> & Sv & Lv & Ev) Hg Hf g ->. exists v. split; auto. split; auto. destruct Hg as [Lg Eg].
  apply (@list_eq_nth _ _ _ N); auto; [rewrite map_length; auto|]. intros i Hi. destruct (@nth_lt _ _ i N (elems_length HX Ha) Hi) as [x Hx].
  destruct (@nth_lt _ _ i N (elems_length HX Hb) Hi) as [y Hy].
  destruct (Ev i x y Hi Hx Hy) as (z & E1 & ->). destruct (Eg i x y Hi Hx Hy) as (z' & E2 & E3). rewrite nth_error_map, E3. inversion E1; inversion E2.
  cbn. do 2 f_equal. eauto using nth_word.
Qed.

(** *** vector operators *)
Lemma binary_sim junk o a b d x y : supported X (IBin o d x y) -> shaped X junk -> shaped X a -> shaped X b ->
  simv (x_binary X F junk o a b) (simd_binary sc o N (elems X a) (elems X b)).
Proof.
  intros Hs Hj Ha Hb. pose proof (elems_length HX Ha) as La. pose proof (elems_length HX Hb) as Lb.
  pose proof (simd_binary_elementwise sc o N (elems X a) (elems X b) La Lb) as E. cbn [supported] in Hs. fold T in Hs.
  assert (EI : forall o, is_int T = true -> sc_bin sc o = cxx_bin t o) by (intros o' Hi; unfold sc, xscalar; cbn [sc_bin]; fold T; rewrite Hi; reflexivity).
  destruct o; cbn [x_binary]; fold T.
  - eapply sim_map2; [exact Ha|exact Hb|apply x_add_ok; auto|exact E|]. intros u v z _ _. apply (@add_refines X HX F).
  - eapply sim_map2; [exact Ha|exact Hb|apply x_sub_ok; auto|exact E|]. intros u v z _ _. apply (@sub_refines X HX F).
  - destruct (is_int T) eqn:Ei.
    + destruct Hs as [Hs|Hs]; [discriminate|]. unfold x_mul_i. destruct (mul_native X) eqn:Em.
      * eapply sim_map2; [exact Ha|exact Hb|apply (x_mul_f_ok HX); auto|exact E|]. intros u v z _ _. apply (@mul_refines X HX F).
      * destruct Hs as [Hs|Hs]; [discriminate|]. rewrite EI in E by auto. eapply sim_ew2; [exact Ha|exact Hb|apply packed2_op_ok; auto|exact E].
    + eapply sim_map2; [exact Ha|exact Hb|apply (x_mul_f_ok HX); auto|exact E|]. intros u v z _ _. apply (@mul_refines X HX F).
  - destruct (is_int T) eqn:Ei.
    + destruct Hs as [Hs|Hs]; [discriminate|]. rewrite EI in E by auto. eapply sim_ew2; [exact Ha|exact Hb|apply x_div_i_ok; auto|exact E].
    + eapply sim_map2; [exact Ha|exact Hb|apply (x_div_f_ok HX); auto|exact E|]. intros u v z _ _. apply divf_refines; auto.
  - destruct Hs as [Ei Hf]. rewrite EI in E by auto. eapply sim_ew2; [exact Ha|exact Hb|apply x_mod_i_ok; auto|exact E].
  - eapply sim_map2; [exact Ha|exact Hb|apply x_and_ok; auto|exact E|]. intros u v z. apply (@and_refines X HX F); auto.
  - eapply sim_map2; [exact Ha|exact Hb|apply x_or_ok; auto|exact E|]. intros u v z. apply (@or_refines X HX F); auto.
  - eapply sim_map2; [exact Ha|exact Hb|apply x_xor_ok; auto|exact E|]. intros u v z. apply (@xor_refines X HX F); auto.
  - destruct Hs as [Ei Hs]. rewrite EI in E by auto. destruct (shift_native X) eqn:En.
    + eapply sim_map2; [exact Ha|exact Hb|apply x_shl_native; auto|exact E|]. intros u v z Hu Hv H.
      assert (Hr : (0 <= ival t v < iw t)%Z).
      { unfold cxx_bin, cxx_val, cxx_shift_val in H. unfold shift_native in En. apply andb_prop in En. destruct En as [_ En]. apply Nat.eqb_eq in En.
        assert (P : promote t = t) by (unfold promote, t, T, ity_of, ew; cbn; rewrite En; reflexivity). rewrite P in H.
        destruct ((0 <=? ival t v)%Z && (ival t v <? iw t)%Z) eqn:Eb; [lia|discriminate]. }
      assert (V : ival t v = v). { unfold ival in *. destruct (isg t); auto. unfold sgn in *. change (iw t) with w in *. destruct (v <? 2 ^ (w - 1))%Z; auto. unfold word in Hv. lia. }
      rewrite V in Hr. apply (@cxx_bin_shl t u v z (t_ok HX) Hu) in H; [|rewrite V; exact Hr]. rewrite V in H. subst z. unfold lane_shl.
      change (iw t) with (xw X) in *. replace (v <? xw X)%Z with true by lia. auto.
    + destruct Hs as [Hs|Hs]; [discriminate|]. unfold x_shl. rewrite En. eapply sim_ew2; [exact Ha|exact Hb|apply packed2_op_ok; auto|exact E].
  - destruct Hs as [Ei En]. assert (Ei' : is_int T = true) by (unfold is_int; rewrite Ei; auto). rewrite EI in E by auto.
    eapply sim_map2; [exact Ha|exact Hb|apply x_shr_native; auto|exact E|]. intros u v z Hu Hv H.
    assert (Sg : isg t = false) by (unfold t, ity_of; cbn; rewrite Ei; auto).
    assert (V : ival t v = v) by (unfold ival; rewrite Sg; auto).
    assert (Hr : (0 <= v < iw t)%Z).
    { unfold cxx_bin, cxx_val, cxx_shift_val in H. unfold shift_native in En. apply andb_prop in En. destruct En as [_ En]. apply Nat.eqb_eq in En.
      assert (P : promote t = t) by (unfold promote, t, T, ity_of, ew; cbn; rewrite En; reflexivity). rewrite P, V in H.
      destruct ((0 <=? v)%Z && (v <? iw t)%Z) eqn:Eb; [lia|discriminate]. }
    apply (@cxx_bin_shr t u v z (t_ok HX) Hu) in H; [|rewrite V; exact Hr]. rewrite V, Sg in H. subst z. unfold lane_shr.
    change (iw t) with (xw X) in *. replace (v <? xw X)%Z with true by lia. auto.
Qed.
Lemma binary_s_sim junk o a d x v : supported X (IBinS o d x v) -> shaped X junk -> shaped X a ->
  simv (x_binary_s X F junk o a v) (simd_binary_s sc o N (elems X a) v).
Proof.
  intros [Hv Hs] Hj Ha. pose proof (elems_length HX Ha) as La.
  pose proof (simd_binary_s_elementwise sc o N (elems X a) v La) as E. fold T in Hs.
  assert (EI : forall o, is_int T = true -> sc_bin sc o = cxx_bin t o) by (intros o' Hi; unfold sc, xscalar; cbn [sc_bin]; fold T; rewrite Hi; reflexivity).
  destruct o; cbn [x_binary_s]; fold T; try contradiction.
  - eapply sim_map1; [exact Ha|apply x_add_s_ok; auto|exact E|]. intros u z _. apply (@add_refines X HX F).
  - eapply sim_map1; [exact Ha|apply x_sub_s_ok; auto|exact E|]. intros u z _. apply (@sub_refines X HX F).
  - destruct (is_int T) eqn:Ei.
    + destruct Hs as [Hs|Hs]; [discriminate|]. unfold x_mul_is. destruct (mul_native X) eqn:Em.
      * eapply sim_map1; [exact Ha|apply (x_mul_fs_ok HX); auto|exact E|]. intros u z _. apply (@mul_refines X HX F).
      * destruct Hs as [Hs|Hs]; [discriminate|]. rewrite EI in E by auto. eapply sim_ew1; [exact Ha|apply packed1_op_ok; auto|exact E].
    + eapply sim_map1; [exact Ha|apply (x_mul_fs_ok HX); auto|exact E|]. intros u z _. apply (@mul_refines X HX F).
  - rewrite Hs. eapply sim_map1; [exact Ha|apply (x_div_fs_ok HX); auto|exact E|]. intros u z _. apply divf_refines; auto.
  - eapply sim_map1; [exact Ha|apply x_and_s_ok; auto|exact E|]. intros u z Hu. apply (@and_refines X HX F); auto.
  - eapply sim_map1; [exact Ha|apply x_or_s_ok; auto|exact E|]. intros u z Hu. apply (@or_refines X HX F); auto.
  - eapply sim_map1; [exact Ha|apply x_xor_s_ok; auto|exact E|]. intros u z Hu. apply (@xor_refines X HX F); auto.
Qed.
Lemma small_ival n : (0 <= n < w)%Z -> ival t n = n /\ word w n.
Proof.
  intros Hn. pose proof (@xw_cases X ltac:(apply HX)) as C. fold w in C.
  assert (P : (w < 2 ^ (w - 1) < 2 ^ w)%Z) by (destruct C as [->|[->|[->| ->]]]; cbn; lia).
  split; [|unfold word; lia]. unfold ival. destruct (isg t); auto. unfold sgn. change (iw t) with w. replace (n <? 2 ^ (w - 1))%Z with true by lia. auto.
Qed.
Lemma shift_s_sim junk l a d x n : supported X (IShiftS l d x n) -> shaped X junk -> shaped X a ->
  simv (if l then x_shl_s X junk a n else x_shr_s X junk a n) (simd_shift_s sc l N (elems X a) n).
Proof.
  intros (Ei & Hn & Hs) Hj Ha. pose proof (elems_length HX Ha) as La. destruct (small_ival Hn) as [V Wn].
  pose proof (simd_shift_s_elementwise sc l N (elems X a) n La) as E. fold T in Hs, Ei.
  assert (EI : sc_shift sc = cxx_shift t) by (unfold sc, xscalar; cbn [sc_shift]; fold T; rewrite Ei; reflexivity). rewrite EI in E.
  destruct (shift_native X) eqn:En.
  - destruct l.
    + eapply sim_map1; [exact Ha|apply x_shl_s_native; auto|exact E|]. intros u z Hu H. change (cxx_shift t true u n = Ok z) in H. rewrite (promote_word_shl t u n (t_ok HX) Hu Hn) in H.
      inversion H. unfold lane_shl. fold w. replace (n <? w)%Z with true by (unfold w; lia). auto.
    + destruct Hs as [Hs|Hs]; [discriminate|]. eapply sim_map1; [exact Ha|apply x_shr_s_native; auto|exact E|]. intros u z Hu H.
      assert (Sg : isg t = false) by (unfold t, ity_of; cbn; fold T; rewrite Hs; auto).
      change (cxx_shift t false u n = Ok z) in H. rewrite (cxx_shift_right t u n (t_ok HX) Hu Hn), Sg in H.
      inversion H. unfold lane_shr. fold w. replace (n <? w)%Z with true by (unfold w; lia). auto.
  - destruct l; [unfold x_shl_s|unfold x_shr_s]; rewrite En.
    + assert (E' : elementwise1 N (fun x => cxx_shift t true x (ival t n)) (elems X a) (simd_shift_s sc true N (elems X a) n)) by (rewrite V; exact E).
      eapply sim_ew1; [exact Ha|apply (packed1_op_ok HX OpShl n Hs Hj Ha)|exact E'].
    + assert (E' : elementwise1 N (fun x => cxx_shift t false x (ival t n)) (elems X a) (simd_shift_s sc false N (elems X a) n)) by (rewrite V; exact E).
      eapply sim_ew1; [exact Ha|apply (packed1_op_ok HX OpShr n Hs Hj Ha)|exact E'].
Qed.
Lemma one_word : word w (sc_one sc).
Proof.
  pose proof (w_pos HX) as Hw. fold w in Hw. unfold sc, xscalar. cbn [sc_one]. destruct (is_int T) eqn:Ei.
  - unfold word. pose proof (@pow2_gt1 w). lia.
  - destruct (@float_w X ltac:(apply HX) Ei) as [E|E]; fold w in E; change (ew T) with w; rewrite E; unfold word, f_one; cbn; lia.
Qed.
Lemma compare_sim_any o a b : match o with CEq | CNe => True | _ => ek T = KInt true \/ ek T = KFloat end -> shaped X a -> shaped X b ->
  simm (x_compare X o a b) (simd_cmp sc o N (elems X a) (elems X b)).
Proof.
  intros Hs Ha Hb. pose proof (elems_length HX Ha) as La. pose proof (elems_length HX Hb) as Lb.
  pose proof (simd_cmp_elementwise sc o N (elems X a) (elems X b) La Lb) as E.
  pose proof (w_pos HX) as Hw. fold w in Hw.
  assert (OR : forall p q u v ru rv, shaped X u -> shaped X v -> is_map2 X (fun x y => mlane w (p x y)) u v ru -> is_map2 X (fun x y => mlane w (q x y)) u v rv ->
     is_map2 X (fun x y => mlane w (p x y || q x y)) u v (g <- ru;; e <- rv;; mask_or X g e)).
  { intros p q u v ru rv Hu Hv H1 H2. destruct (is_map2_elems HX Hu Hv H1) as (r1 & -> & S1 & E1). destruct (is_map2_elems HX Hu Hv H2) as (r2 & -> & S2 & E2).
    cbn [bind]. destruct (is_map2_elems HX S1 S2 (mask_or_ok HX S1 S2)) as (r & -> & S & Er). apply elems_is_map2; auto. rewrite Er, E1, E2.
    pose proof (elems_length HX Hu). pose proof (elems_length HX Hv). assert (LL : length (elems X u) = length (elems X v)) by lia. revert LL.
    generalize (elems X u) (elems X v). clear. intros l. induction l; intros [|y l'] HL; cbn in *; try lia; auto. rewrite lor_mlane. f_equal. apply IHl. lia. }
  assert (SW : forall f u v r, shaped X u -> shaped X v -> is_map2 X f u v r -> is_map2 X (fun x y => f y x) v u r).
  { intros f u v r Hu Hv H. destruct (is_map2_elems HX Hu Hv H) as (r1 & -> & S1 & E1). apply elems_is_map2; auto. rewrite E1.
    generalize (elems X u) (elems X v). clear. intros l. induction l; intros [|y l']; cbn; auto. f_equal; auto. }
  assert (SF : forall o, o <> CEq -> o <> CNe -> ek T = KInt true \/ ek T = KFloat -> is_int T = false -> sc_cmp sc o = f_cmp w o).
  { intros o' _ _ _ Hi. unfold sc, xscalar. cbn [sc_cmp]. fold T. rewrite Hi. reflexivity. }
  assert (CI : is_int T = true -> sc_cmp sc = cxx_cmp t) by (intros Hi; unfold sc, xscalar; cbn [sc_cmp]; rewrite Hi; reflexivity).
  destruct o; cbn [x_compare]; fold T.
  - eapply sim_mask2; [exact Ha|exact Hb|apply x_eq_ok; auto|exact E|]. intros; apply eq_refines; auto.
  - eapply sim_mask2; [exact Ha|exact Hb|apply x_ne_ok; auto|exact E|]. intros; apply ne_refines; auto.
  - destruct (is_int T) eqn:Ei.
    + unfold x_lt_i. eapply sim_mask2; [exact Ha|exact Hb|apply SW; [exact Hb|exact Ha|apply x_gt_ok; auto]|exact E|].
      intros u v Hu Hv. cbn beta. rewrite (@gt_refines X F) by auto. fold T. fold sc. rewrite CI by auto. reflexivity.
    + eapply sim_mask2; [exact Ha|exact Hb|apply x_lt_f_ok; auto|exact E|]. intros u v _ _. rewrite SF by (auto; discriminate). reflexivity.
  - destruct (is_int T) eqn:Ei.
    + unfold x_le_i, x_lt_i. eapply sim_mask2; [exact Ha|exact Hb| |exact E|].
      * apply (OR (fun x y => lane_gt X y x) (lane_eq X)); auto; [|apply x_eq_ok; auto]. apply (SW (fun x y => mlane w (lane_gt X x y))); auto. apply x_gt_ok; auto.
      * intros u v Hu Hv. cbn beta. rewrite (@gt_refines X F), (@eq_refines X HX F) by auto. fold T. fold sc. rewrite CI by auto.
        unfold cxx_cmp, cmp_val. destruct (Z.ltb_spec (ival t u) (ival t v)), (Z.eqb_spec (ival t u) (ival t v)), (Z.leb_spec (ival t u) (ival t v)); auto; lia.
    + eapply sim_mask2; [exact Ha|exact Hb|apply x_le_f_ok; auto|exact E|]. intros u v _ _. rewrite SF by (auto; discriminate). reflexivity.
  - destruct (is_int T) eqn:Ei.
    + eapply sim_mask2; [exact Ha|exact Hb|apply x_gt_ok; auto|exact E|]. intros u v _ _. rewrite (@gt_refines X F) by auto. reflexivity.
    + eapply sim_mask2; [exact Ha|exact Hb|apply x_gt_f_ok; auto|exact E|]. intros u v _ _. rewrite (@gt_refines X F) by auto. reflexivity.
  - destruct (is_int T) eqn:Ei.
    + unfold x_ge_i. eapply sim_mask2; [exact Ha|exact Hb| |exact E|].
      * apply (OR (lane_gt X) (lane_eq X)); auto; [apply x_gt_ok|apply x_eq_ok]; auto.
      * intros u v Hu Hv. cbn beta. rewrite (@gt_refines X F), (@eq_refines X HX F) by auto. fold T. fold sc. rewrite CI by auto.
        unfold cxx_cmp, cmp_val. destruct (Z.ltb_spec (ival t v) (ival t u)), (Z.eqb_spec (ival t u) (ival t v)), (Z.leb_spec (ival t v) (ival t u)); auto; lia.
    + eapply sim_mask2; [exact Ha|exact Hb|apply x_ge_f_ok; auto|exact E|]. intros u v _ _. rewrite SF by (auto; discriminate). reflexivity.
Qed.
Lemma compare_sim o a b m x y : supported X (ICmp o m x y) -> shaped X a -> shaped X b ->
  simm (x_compare X o a b) (simd_cmp sc o N (elems X a) (elems X b)).
Proof. intros Hs. apply compare_sim_any. cbn [supported] in Hs. destruct o; intuition idtac. Qed.

(** *** masks *)
Lemma same_mask_elems m g : same_mask X m g -> mask_elems X m = g /\ length g = N.
Proof.
  intros [Hm E]. pose proof (w_pos HX) as Hw. fold w in Hw. split.
  - unfold mask_elems. rewrite E, map_map. rewrite <- (map_id g) at 2. apply map_ext. intros. apply mlane_nz. lia.
  - pose proof (elems_length HX Hm) as L. rewrite E, map_length in L. exact L.
Qed.
Lemma same_mask_good m g : same_mask X m g -> no_neg_zero X m.
Proof.
  intros [Hm E]. apply canon_no_neg_zero; auto. intros i l Hl. rewrite E, nth_error_map in Hl.
  destruct (nth_error g i) as [[]|]; inversion Hl; auto.
Qed.
Lemma map_inj_mlane a b : map (mlane w) a = map (mlane w) b -> a = b.
Proof.
  pose proof (w_pos HX) as Hw. fold w in Hw. revert b. induction a as [|x a IH]; intros [|y b] H; try discriminate; auto. inversion H. f_equal; auto.
  pose proof (@mlane_inj w x y ltac:(lia)) as K. rewrite H1, Z.eqb_refl in K. symmetry in K. apply eqb_prop in K. auto.
Qed.
Lemma mask_binary_sim o a b ga gb : o <> MLAnd -> same_mask X a ga -> same_mask X b gb ->
  simm (x_mask_binary X o a b) (mask_binary o N ga gb).
Proof.
  intros Ho Ha Hb. destruct (same_mask_elems Ha) as [_ La]. destruct (same_mask_elems Hb) as [_ Lb]. destruct Ha as [Sa Ea], Hb as [Sb Eb].
  pose proof (w_pos HX) as Hw. fold w in Hw, Ea, Eb.
  pose proof (mask_binary_elementwise o N ga gb La Lb) as E.
  assert (G : forall f, is_map2 X f a b (x_mask_binary X o a b) -> (forall x y, f (mlane w x) (mlane w y) = mlane w (mask_bin_meaning o x y)) ->
     simm (x_mask_binary X o a b) (mask_binary o N ga gb)).
  { intros f H Hf g Hg. rewrite Hg in E. destruct (is_map2_elems HX Sa Sb H) as (v & -> & Sv & Ev). exists v. split; auto. split; auto.
    rewrite Ev, Ea, Eb. fold w. destruct E as [Lg Eg]. apply (@list_eq_nth _ _ _ N); [rewrite vmap2_length, !map_length; lia|rewrite map_length; lia|].
    intros i Hi. destruct (@nth_lt _ ga i N La Hi) as [x Hx]. destruct (@nth_lt _ gb i N Lb Hi) as [y Hy].
    destruct (Eg i x y Hi Hx Hy) as (z & E1 & E2). inversion E1; subst z. rewrite nth_error_map, E2. cbn. rewrite <- Hf.
    apply nth_error_vmap2; rewrite nth_error_map; [rewrite Hx|rewrite Hy]; auto. }
  destruct o; try congruence; cbn [x_mask_binary] in *.
  - eapply G; [apply mask_and_ok; auto|]. intros; apply land_mlane.
  - eapply G; [apply mask_or_ok; auto|]. intros; apply lor_mlane.
  - eapply G; [apply mask_xor_ok; auto|]. intros; apply lxor_mlane; lia.
  - eapply G; [apply mask_lor_ok; auto|]. intros x y. cbn beta. fold w. rewrite !mlane_nz by lia. reflexivity.
  - eapply G; [apply mask_meq_ok; auto|]. intros x y. cbn beta. fold w. rewrite mlane_inj by lia. destruct x, y; reflexivity.
  - eapply G; [apply mask_mne_ok; auto|]. intros x y. cbn beta. fold w. rewrite mlane_inj by lia. destruct x, y; reflexivity.
Qed.
Lemma mask_not_sim a ga : same_mask X a ga -> simm (mask_lnot X a) (mask_unary MNot N ga).
Proof.
  intros Ha. destruct (same_mask_elems Ha) as [_ La]. destruct Ha as [Sa Ea]. fold w in Ea.
  pose proof (mask_not_elementwise N ga La) as E. intros g Hg. rewrite Hg in E. destruct (is_map1_elems HX Sa (mask_not_ok HX Sa)) as (v & Ev & Sv & EE).
  exists v. split; [exact Ev|]. split; auto. rewrite EE, Ea, map_map. fold w. destruct E as [Lg Eg].
  apply (@list_eq_nth _ _ _ N); [rewrite map_length; lia|rewrite map_length; lia|].
  intros i Hi. destruct (@nth_lt _ ga i N La Hi) as [x Hx]. destruct (Eg i x Hi Hx) as (z & E1 & E2). inversion E1; subst z.
  rewrite !nth_error_map, Hx, E2. cbn. rewrite ones_sub_mlane. auto.
Qed.
Lemma blend_len {A} (zero : A) m a b g : blend zero N m a b = Ok g -> length m = N -> length a = N -> length b = N ->
  length g = N /\ forall i c x y, nth_error m i = Some c -> nth_error a i = Some x -> nth_error b i = Some y -> nth_error g i = Some (if c then x else y).
Proof.
  intros H Lm La Lb. unfold blend in H. apply from_result_ok in H. destruct H as [L H]. split; auto.
  intros i c x y Hc Hx Hy. assert (Hi : i < N) by (rewrite <- Lm; apply nth_error_Some; congruence). specialize (H i Hi).
  apply get_ok in Hc, Hx, Hy. rewrite Hc in H. cbn [bind] in H. apply get_ok. destruct c; congruence.
Qed.
Lemma blend_core m gm a b (v : list vec) : same_mask X m gm -> shaped X a -> shaped X b ->
  exists v, x_blend X m a b = Ok v /\ shaped X v /\ forall i c x y, nth_error gm i = Some c -> nth_error (elems X a) i = Some x -> nth_error (elems X b) i = Some y ->
    nth_error (elems X v) i = Some (if c then x else y).
Proof.
  intros Hm Ha Hb. destruct (same_mask_elems Hm) as [_ Lm]. destruct Hm as [Sm Em]. pose proof (w_pos HX) as Hw. fold w in Hw, Em.
  destruct (x_blend_ok HX Sm Ha Hb) as (r & E & Sr & Lr & Er). exists r. split; auto. split; auto.
  intros i c x y Hc Hx Hy. assert (Hi : i < N) by (rewrite <- Lm; apply nth_error_Some; congruence).
  assert (Hl : nth_error (elems X m) i = Some (mlane w c)) by (rewrite Em, nth_error_map, Hc; auto).
  destruct (Er i (mlane w c) x y Hi Hl Hx Hy) as (z & E1 & ->). inversion E1. f_equal. pose proof (@mlane_nz w c ltac:(lia)) as K.
  destruct (mlane w c =? 0)%Z, c; cbn in K; auto; discriminate.
Qed.
Lemma blend_simv m gm a b : same_mask X m gm -> shaped X a -> shaped X b ->
  simv (x_blend X m a b) (blend 0%Z N gm (elems X a) (elems X b)).
Proof.
  intros Hm Ha Hb g Hg. destruct (same_mask_elems Hm) as [_ Lm]. pose proof (elems_length HX Ha) as La. pose proof (elems_length HX Hb) as Lb.
  destruct (blend_len _ _ _ _ Hg Lm La Lb) as [Lg Eg]. destruct (@blend_core m gm a b a Hm Ha Hb) as (v & E & Sv & Ev).
  exists v. split; auto. split; auto. pose proof (elems_length HX Sv). apply (@list_eq_nth _ _ _ N); auto. intros i Hi.
  destruct (@nth_lt _ gm i N Lm Hi) as [c Hc]. destruct (@nth_lt _ _ i N La Hi) as [x Hx]. destruct (@nth_lt _ _ i N Lb Hi) as [y Hy].
  rewrite (Ev i c x y), (Eg i c x y); auto.
Qed.
Lemma blend_simm m gm a b ga gb : same_mask X m gm -> same_mask X a ga -> same_mask X b gb ->
  simm (x_blend X m a b) (blend false N gm ga gb).
Proof.
  intros Hm Ha Hb g Hg. destruct (same_mask_elems Hm) as [_ Lm]. destruct (same_mask_elems Ha) as [_ La]. destruct (same_mask_elems Hb) as [_ Lb].
  destruct Ha as [Sa Ea], Hb as [Sb Eb]. fold w in Ea, Eb.
  destruct (blend_len _ _ _ _ Hg Lm La Lb) as [Lg Eg]. destruct (@blend_core m gm a b a Hm Sa Sb) as (v & E & Sv & Ev).
  exists v. split; auto. split; auto. pose proof (elems_length HX Sv). fold w. apply (@list_eq_nth _ _ _ N); auto; [rewrite map_length; auto|]. intros i Hi.
  destruct (@nth_lt _ gm i N Lm Hi) as [c Hc]. destruct (@nth_lt _ _ i N La Hi) as [x Hx]. destruct (@nth_lt _ _ i N Lb Hi) as [y Hy].
  rewrite (Ev i c (mlane w x) (mlane w y)); auto; try (first [rewrite Ea|rewrite Eb]; rewrite nth_error_map; first [rewrite Hx|rewrite Hy]; auto).
  rewrite nth_error_map, (Eg i c x y) by auto. cbn. destruct c; auto.
Qed.

(** *** loads, generators, constant shifts *)
Lemma generate_simv junk g : shaped X junk -> (forall i, word w (g i)) -> forall gd,
  generate N (fun i (u : unit) => Ok (g i, u)) (repeat 0%Z N) tt = Ok (gd, tt) ->
  exists d, x_generate X (fun i (u : unit) => Ok (g i, u)) junk tt = Ok (d, tt) /\ same_vec X d gd.
Proof.
  intros Hj Hg gd E. rewrite generate_spec in E by apply repeat_length.
  pose proof (@x_generate_ok X HX unit (fun i u => Ok (g i, u)) junk tt (proj1 Hj)) as G. fold N in G. rewrite E in G. destruct G as (d & E1 & S & E2).
  - intros i s v s' H. inversion H. apply Hg.
  - exists d. split; auto. split; auto.
Qed.
Lemma call_gen_map {A B} (f : A -> B) g n : forall I l, call_gen n I (fun i (u : unit) => Ok (g i, u)) tt = Ok (l, tt) ->
  call_gen n I (fun i (u : unit) => ' (b, s') <- (Ok (g i, u) : res (A * unit));; Ok (f b, s')) tt = Ok (map f l, tt).
Proof.
  induction n as [|n IH]; intros I l H; cbn [call_gen bind] in *; [inversion H; auto|].
  destruct (call_gen n (S I) (fun i u => Ok (g i, u)) tt) as [[vs []]|] eqn:E; cbn [bind] in H; [|discriminate]. inversion H; subst.
  rewrite (IH _ _ E). reflexivity.
Qed.
Lemma generate_simm junk g : shaped X junk -> forall gd,
  generate N (fun i (u : unit) => Ok (g i, u)) (repeat false N) tt = Ok (gd, tt) ->
  exists d, mask_generate X (fun i (u : unit) => Ok (g i, u)) junk tt = Ok (d, tt) /\ same_mask X d gd.
Proof.
  intros Hj gd E. rewrite generate_spec in E by apply repeat_length.
  pose proof (@x_generate_ok X HX unit (fun i u => ' (b, s') <- (Ok (g i, u) : res (bool * unit));; Ok (mlane (xw X) b, s')) junk tt (proj1 Hj)) as G. fold N w in G.
  rewrite (@call_gen_map bool Z (mlane w) g N 0 gd E) in G. destruct G as (d & E1 & S & E2).
  - intros i s v s' H. cbn [bind] in H. inversion H. apply word_mlane. pose proof (w_pos HX) as Hw. fold w in Hw. lia.
  - exists d. split; auto. split; auto.
Qed.
Lemma load_simv junk mem p : shaped X junk -> words w mem -> simv (x_copy_from X Ok false mem p junk) (copy_from Ok N mem p (repeat 0%Z N)).
Proof.
  intros Hj Hm g E. pose proof (@copy_from_elem X HX Ok mem p junk (repeat 0%Z N) Hj (repeat_length _ _)) as H. fold N in H. rewrite E in H.
  destruct (x_copy_from X Ok false mem p junk) as [d|].
  - destruct H as [S H]; [intros x v Hx Hv; inversion Hv; subst; eapply words_In; eauto|]. inversion H. exists d. split; auto. split; auto.
  - exfalso. discriminate H. intros x v Hx Hv; inversion Hv; subst; eapply words_In; eauto.
Qed.
Lemma shift_fn_sim n a : shaped X a -> (0 <= n < w)%Z ->
  simv (x_lsl X n a) (simd_lsl t n N (elems X a)) /\ simv (x_asl X n a) (simd_asl t n N (elems X a)) /\
  ((1 <= n)%Z -> simv (x_lsr X n a) (simd_lsr t n N (elems X a))) /\
  (ek T = KInt true -> (esz T <> 8 \/ (n = 0 \/ 32 <= n)%Z) -> simv (x_asr X n a) (simd_asr t n N (elems X a))).
Proof.
  intros Ha Hn. pose proof (elems_length HX Ha) as L. repeat split; intros.
  - eapply sim_map1; [exact Ha|apply x_lsl_ok; auto|apply simd_lsl_elementwise; auto|]. intros x z Hx E. change (cxx_shift t true x n = Ok z) in E. rewrite (promote_word_shl t x n (t_ok HX) Hx Hn) in E. inversion E. auto.
  - eapply sim_map1; [exact Ha|apply x_asl_ok; auto|apply simd_asl_elementwise; auto|]. intros x z Hx E. change (cxx_shift t true x n = Ok z) in E. rewrite (promote_word_shl t x n (t_ok HX) Hx Hn) in E. inversion E. auto.
  - eapply sim_map1; [exact Ha|apply (@x_lsr_ok X HX); [lia|exact Ha]|apply simd_lsr_elementwise; auto|]. intros x z Hx E. rewrite (lsr_impl_spec t x n (t_ok HX) Hx) in E by (change (iw t) with w; lia). inversion E. auto.
  - eapply sim_map1; [exact Ha|apply x_asr_ok; auto|apply simd_asr_elementwise; auto|]. intros x z Hx E.
    assert (Sg : isg t = true) by (unfold t, ity_of; cbn; rewrite H; auto).
    rewrite (asr_impl_spec t x n (t_ok HX) Sg Hx Hn) in E. inversion E. auto.
Qed.

(** *** reductions *)
Lemma red_sim r m gm z : same_mask X m gm -> tails_safe X -> (r = RMaxIndex -> full X) ->
  red_val (all_of N gm) (any_of N gm) (none_of N gm) (some_of N gm) (reduce_count N gm) (reduce_min_index N gm) (reduce_max_index N gm) r = Ok z ->
  red_val (x_all_of X m) (x_any_of X m) (x_none_of X m) (x_some_of X m) (x_reduce_count X m) (x_reduce_min_index X m) (x_reduce_max_index X m) r = Ok z.
Proof.
  intros Hm Ht Hf. destruct (same_mask_elems Hm) as [Em Lm]. pose proof (same_mask_good Hm) as G. pose proof (proj1 Hm) as Sm.
  pose proof (@x_all_of_ok X HX m Ht Sm G) as A. destruct (@x_any_of_ok X HX m Ht Sm (or_intror G)) as [B C].
  pose proof (@x_some_of_ok X HX m Ht Sm G) as D. pose proof (@x_reduce_count_ok X HX m Ht Sm G) as E. rewrite Em in *. fold N in A, B, C, D.
  rewrite A, B, C, D, E. pose proof (reduce_count_spec N gm Lm) as RC. destruct r; cbn [red_val]; auto.
  - rewrite RC. auto.
  - destruct (any_of_spec N gm Lm) as (b & Eb & HP). rewrite Eb. cbn [bind]. destruct b; auto.
    destruct (first_true_ex gm) as [i Hi]; [destruct HP as [HP _]; destruct (HP eq_refl) as (i & Hi & Hn); apply existsb_exists; exists true; split; auto; eapply nth_error_In; eauto|].
    rewrite (proj1 (reduce_min_index_spec N gm Lm) i Hi). rewrite (@x_min_index_ok X HX m i Sm G); [auto|rewrite Em; auto].
  - destruct (any_of_spec N gm Lm) as (b & Eb & HP). rewrite Eb. cbn [bind]. destruct b; auto.
    destruct (last_true_ex gm) as [i Hi]; [destruct HP as [HP _]; destruct (HP eq_refl) as (i & Hi & Hn); apply existsb_exists; exists true; split; auto; eapply nth_error_In; eauto|].
    rewrite (proj1 (reduce_max_index_spec N gm Lm) i Hi). rewrite (@x_max_index_ok X HX m i Sm G); [|rewrite Em; auto].
    rewrite max_shift_zero; auto; [rewrite Nat.add_0_r; auto|]. fold N. rewrite <- Lm. apply nth_error_Some. destruct Hi as [Hi _]. congruence.
Qed.

(** *** one instruction *)
Lemma copy_to_words d m p m' : words w d -> words w m -> copy_to Ok N d m p = Ok m' -> words w m'.
Proof.
  intros Hd Hm. unfold copy_to. generalize N. intros n. revert m'. induction n as [|n IH]; intros m' H; [inversion H; subst; auto|].
  replace (S n) with (n + 1) in H by lia. rewrite for_up_snoc in H. destruct (for_up 0 n _ m) as [m1|] eqn:E; cbn [bind] in H; [|discriminate].
  specialize (IH _ eq_refl). destruct (get d n) as [x|] eqn:Ex; cbn [bind] in H; [|discriminate]. apply get_ok in Ex.
  apply Forall_forall. intros z Hz. apply In_nth_error in Hz. destruct Hz as [j Hz]. apply get_ok in Hz. apply set_ok_iff in H. destruct H as (H1 & H2 & H3 & H4).
  destruct (Nat.eq_dec j (p + n)) as [->|Hne].
  - rewrite H3 in Hz. inversion Hz; subst. eapply words_In; [exact Hd|eapply nth_error_In; eauto].
  - rewrite H4 in Hz by auto. apply get_ok in Hz. eapply words_In; [exact IH|eapply nth_error_In; eauto].
Qed.
Lemma put_v_sim xs gs d x g gs' : same_state X xs gs -> same_vec X x g -> put_v gs d g = Ok gs' ->
  exists xs', put_v xs d x = Ok xs' /\ same_state X xs' gs'.
Proof.
  intros (A & B & C & D & E) H P. unfold put_v in *. destruct (set (vr gs) d g) as [r'|] eqn:S; cbn [bind] in P; [|discriminate]. inversion P; subst.
  destruct (@Forall2_set _ _ _ _ _ _ _ _ _ A H S) as (r & -> & R). eexists. split; [reflexivity|]. repeat split; auto.
Qed.
Lemma put_m_sim xs gs d x g gs' : same_state X xs gs -> same_mask X x g -> put_m gs d g = Ok gs' ->
  exists xs', put_m xs d x = Ok xs' /\ same_state X xs' gs'.
Proof.
  intros (A & B & C & D & E) H P. unfold put_m in *. destruct (set (mr gs) d g) as [r'|] eqn:S; cbn [bind] in P; [|discriminate]. inversion P; subst.
  destruct (@Forall2_set _ _ _ _ _ _ _ _ _ B H S) as (r & -> & R). eexists. split; [reflexivity|]. repeat split; auto.
Qed.
Lemma emit_sim xs gs z gs' : same_state X xs gs -> emit gs z = Ok gs' -> exists xs', emit xs z = Ok xs' /\ same_state X xs' gs'.
Proof.
  intros (A & B & C & D & E) P. inversion P; subst. eexists. split; [reflexivity|]. repeat split; cbn; auto. congruence.
Qed.
Lemma bind_inv {A B} (e : res A) (k : A -> res B) r : (x <- e;; k x) = Ok r -> exists x, e = Ok x /\ k x = Ok r.
Proof. destruct e; cbn [bind]; [eauto|discriminate]. Qed.

Lemma step_sim junk i xs gs gs' : supported X i -> shaped X junk -> same_state X xs gs -> g_step X F i gs = Ok gs' ->
  exists xs', x_step X F junk i xs = Ok xs' /\ same_state X xs' gs'.
Proof.
  intros Hs Hj HS H. pose proof HS as (Sv & Sm & Se & Sw & So). pose proof (w_pos HX) as Hw. fold w in Hw.
  assert (GV : forall a g, get (vr gs) a = Ok g -> exists x, get (vr xs) a = Ok x /\ shaped X x /\ elems X x = g /\ length g = N).
  { intros a g E. destruct (Forall2_get _ Sv E) as (x & E1 & E2 & E3). exists x. split; [exact E1|split; [exact E2|split; [exact E3|]]]. rewrite <- E3. apply elems_length; auto. }
  assert (GM : forall a g, get (mr gs) a = Ok g -> exists x, get (mr xs) a = Ok x /\ same_mask X x g).
  { intros a g E. apply (Forall2_get _ Sm E). }
  assert (PV : forall d rx rg gs', simv rx rg -> (r <- rg;; put_v gs d r) = Ok gs' -> exists xs', (r <- rx;; put_v xs d r) = Ok xs' /\ same_state X xs' gs').
  { intros d rx rg gs1 R E. apply bind_inv in E. destruct E as (g & Eg & P). destruct (R _ Eg) as (x & -> & Hx). cbn [bind]. eapply put_v_sim; eauto. }
  assert (PM : forall d rx rg gs', simm rx rg -> (r <- rg;; put_m gs d r) = Ok gs' -> exists xs', (r <- rx;; put_m xs d r) = Ok xs' /\ same_state X xs' gs').
  { intros d rx rg gs1 R E. apply bind_inv in E. destruct E as (g & Eg & P). destruct (R _ Eg) as (x & -> & Hx). cbn [bind]. eapply put_m_sim; eauto. }
  Ltac getv H G x := let g := fresh "g" in let E := fresh "E" in let E1 := fresh "E" in let S := fresh "S" in let L := fresh "L" in
    apply bind_inv in H; destruct H as (g & E & H); destruct (G _ _ E) as (x & E1 & S & <- & L); rewrite E1; cbn [bind].
  Ltac getm H G x := let g := fresh "g" in let E := fresh "E" in let E1 := fresh "E" in let S := fresh "S" in
    apply bind_inv in H; destruct H as (g & E & H); destruct (G _ _ E) as (x & E1 & S); rewrite E1; cbn [bind].
  destruct i; cbn [g_step x_step] in *; fold N T sc t in H.
  - rewrite broadcast_spec in H by apply repeat_length. cbn [bind] in H. destruct (@x_broadcast_ok X HX v Hs). eapply put_v_sim; eauto. split; auto.
  - apply bind_inv in H. destruct H as ([gd []] & E & H). destruct (generate_simv g Hj Hs E) as (x & -> & Hx). cbn [bind]. eapply put_v_sim; eauto.
  - rewrite Se. eapply PV; [|exact H]. apply load_simv; auto.
  - getv H GV x. rewrite (@copy_to_elem X HX Ok x (mem xs) p) by auto. fold N. rewrite Se. apply bind_inv in H. destruct H as (m & E2 & H). rewrite E2. cbn [bind].
    inversion H; subst. eexists. split; [reflexivity|]. repeat split; cbn; auto.
    eapply copy_to_words; [|exact Sw|exact E2]. apply elems_words; auto.
  - getv H GV x. getv H GV y. eapply PV; [|exact H]. eapply binary_sim; eauto.
  - getv H GV x. eapply PV; [|exact H]. eapply binary_s_sim; eauto.
  - getv H GV x. eapply PV; [|exact H]. eapply shift_s_sim; eauto.
  - getv H GV x. eapply PV; [|exact H]. eapply sim_map1; [exact S|apply x_neg_ok; auto|exact (simd_neg_elementwise sc N (elems X x) L)|]. intros u z _. apply (@neg_refines X HX F).
  - getv H GV x. eapply PV; [|exact H]. destruct Hs as [Hi Hf]. eapply sim_ew1; [exact S|apply x_not_ok; auto|].
    pose proof (simd_not_elementwise sc N (elems X x) L) as K. assert (EN : sc_not sc = cxx_not t) by (unfold sc, xscalar; cbn [sc_not]; fold T in Hi; rewrite Hi; reflexivity).
    rewrite EN in K. exact K.
  - getv H GV x. eapply PV; [|exact H]. unfold x_inc. destruct (simd_unary_all sc N (elems X x) L) as (_ & _ & _ & K & _).
    eapply sim_map1; [exact S|apply x_add_s_ok; auto using one_word|exact K|]. intros u z _. apply (@add_refines X HX F).
  - getv H GV x. eapply PV; [|exact H]. unfold x_dec. destruct (simd_unary_all sc N (elems X x) L) as (_ & _ & _ & _ & K & _).
    eapply sim_map1; [exact S|apply x_sub_s_ok; auto using one_word|exact K|]. intros u z _. apply (@sub_refines X HX F).
  - getv H GV x. eapply PV; [|exact H]. apply shift_fn_sim; auto. apply Hs.
  - getv H GV x. eapply PV; [|exact H]. apply (@shift_fn_sim n x); auto; destruct Hs as (_ & _ & Hn); fold w in Hn; lia.
  - getv H GV x. eapply PV; [|exact H]. apply shift_fn_sim; auto. apply Hs.
  - getv H GV x. eapply PV; [|exact H]. apply (@shift_fn_sim n x); auto; apply Hs.
  - getv H GV x. getv H GV y. eapply PV; [|exact H]. destruct Hs as (Hi & _). eapply sim_map2; [exact S|exact S0|apply x_min_ok; auto|exact (simd_min_elementwise sc N (elems X x) (elems X y) L L0)|].
    intros u v z Hu Hv E'. inversion E'. symmetry. apply min_refines; auto.
  - getv H GV x. getv H GV y. eapply PV; [|exact H]. destruct Hs as (Hi & _). eapply sim_map2; [exact S|exact S0|apply x_max_ok; auto|exact (simd_max_elementwise sc N (elems X x) (elems X y) L L0)|].
    intros u v z Hu Hv E'. inversion E'. symmetry. apply max_refines; auto.
  - getv H GV x. getv H GV y. eapply PM; [|exact H]. eapply compare_sim; eauto.
  - getv H GV x. eapply PM; [|exact H]. eapply sim_mask1; [exact S|apply x_lnot_ok; auto|exact (simd_lnot_elementwise sc N (elems X x) L)|].
    intros u Hu. apply (@lnot_refines X HX F); auto.
  - getm H GM c. getv H GV x. getv H GV y. eapply PV; [|exact H]. apply blend_simv; auto.
  - getv H GV x. eapply PV; [|exact H]. intros g Hg. unfold index_set in Hg. pose proof (set_upd _ _ _ Hg) as U. apply set_ok_iff in Hg. destruct Hg as [Hi _].
    destruct (@xset_elems X HX x i v S) as (x' & E2 & S2 & E3); [fold N; lia|exact Hs|]. exists x'. split; auto. split; auto. congruence.
  - getv H GV x. apply bind_inv in H. destruct H as (v & Hv & H). unfold index_get in Hv. pose proof (get_ok_lt _ _ _ Hv) as Hi.
    destruct (@nth_elems X HX x i S) as (v' & -> & E2 & _); [fold N; lia|]. cbn [bind]. apply get_ok in Hv. replace v' with v by congruence. eapply emit_sim; eauto.
  - rewrite broadcast_spec in H by apply repeat_length. cbn [bind] in H. destruct (@mask_broadcast_ok X HX b). eapply put_m_sim; eauto. split; auto. rewrite H1, map_repeat. reflexivity.
  - apply bind_inv in H. destruct H as ([gd []] & E & H). destruct (generate_simm g Hj E) as (x & -> & Hx). cbn [bind]. eapply put_m_sim; eauto.
  - getm H GM x. getm H GM y. eapply PM; [|exact H]. apply mask_binary_sim; auto.
  - getm H GM x. eapply PM; [|exact H]. apply mask_not_sim; auto.
  - getm H GM k. getm H GM x. getm H GM y. eapply PM; [|exact H]. apply blend_simm; auto.
  - getm H GM x. apply bind_inv in H. destruct H as (v & Hv & H). eapply PM; [|exact H]. intros g' Hg. unfold index_get, index_set in *.
    pose proof (set_upd _ _ _ Hg) as U. pose proof (get_ok_lt _ _ _ Hv) as Hi. destruct (same_mask_elems S) as [_ L]. destruct S as [Sx Ex].
    destruct (@mask_ref_ok X HX o x i b Sx) as (x' & l & -> & S' & El & Wl & Eu); [fold N; lia|]. exists x'. split; auto. split; auto.
    apply get_ok in Hv. rewrite Ex, nth_error_map, Hv in El. cbn [option_map] in El. injection El as <-. rewrite Eu, Ex. fold w. subst g'.
    apply nth_ext_list; [rewrite map_length, !upd_length, map_length; auto|]. intros j Hj'. rewrite nth_error_upd, !nth_error_map, nth_error_upd.
    destruct (Nat.eqb_spec j i) as [->|]; auto. rewrite Hv. cbn. f_equal.
    destruct o; cbn [ref_write bool_op]; fold w; [reflexivity|apply lor_mlane|apply land_mlane|apply (@lxor_mlane w v b); clear -Hw; lia].
  - getm H GM x. apply bind_inv in H. destruct H as (v & Hv & H). unfold index_get in Hv. pose proof (get_ok_lt _ _ _ Hv) as Hi.
    destruct (same_mask_elems S) as [_ L]. destruct S as [Sx Ex].
    destruct (@nth_elems X HX x i Sx) as (v' & E1 & E2 & _); [fold N; lia|]. unfold mget. rewrite E1. cbn [bind]. apply get_ok in Hv.
    rewrite Ex, nth_error_map, Hv in E2. cbn [option_map] in E2. injection E2 as <-. fold w. rewrite (@mlane_nz w v) by (clear -Hw; lia). eapply emit_sim; eauto.
  - getm H GM x. apply bind_inv in H. destruct H as (z & Hz & H). destruct Hs as [Ht Hr].
    rewrite (@red_sim r x g z); auto; [cbn [bind]; eapply emit_sim; eauto|]. intros ->. auto.
Qed.

Lemma test_sim m xs gs b : tails_safe X -> same_state X xs gs -> g_test X m gs = Ok b -> x_test X m xs = Ok b.
Proof.
  intros Ht (Sv & Sm & _) H. apply bind_inv in H. destruct H as (g & E & H). destruct (Forall2_get _ Sm E) as (x & E1 & S).
  unfold x_test. rewrite E1. cbn [bind]. destruct (@x_any_of_ok X HX x Ht (proj1 S) (or_intror (same_mask_good S))) as [-> _].
  destruct (same_mask_elems S) as [-> _]. exact H.
Qed.
Lemma exec_sim junk c xs gs gs' : supported_cmd X c -> shaped X junk -> same_state X xs gs -> exec (g_step X F) (g_test X) c gs gs' ->
  exists xs', exec (x_step X F junk) (x_test X) c xs xs' /\ same_state X xs' gs'.
Proof.
  intros Hs Hj HS E. revert xs HS. induction E; intros xs HS; cbn [supported_cmd] in Hs.
  - destruct (step_sim _ Hs Hj HS H) as (xs' & E & S). exists xs'. split; auto. constructor; auto.
  - exists xs. split; auto. constructor.
  - destruct Hs as [H1 H2]. destruct (IHE1 H1 _ HS) as (x1 & X1 & S1). destruct (IHE2 H2 _ S1) as (x2 & X2 & S2). exists x2. split; auto. econstructor; eauto.
  - destruct Hs as (Ht & H1 & H2). destruct (IHE (if c as c return supported_cmd X (if c then a else b) then H1 else H2) _ HS) as (x' & X' & S').
    exists x'. split; auto. econstructor; eauto. eapply test_sim; eauto.
  - exists xs. split; auto. apply exec_done. eapply test_sim; eauto. apply Hs.
  - destruct (IHE1 (proj2 Hs) _ HS) as (x1 & X1 & S1). destruct (IHE2 Hs _ S1) as (x2 & X2 & S2). exists x2. split; auto. eapply exec_loop; eauto. eapply test_sim; eauto. apply Hs.
Qed.
End WF.
