(** nextafter: the kernel computes [nxt] on every lane, and [nxt] is the adjacent float. *)
From Coq Require Import ZifyBool ZifyNat.
From Verif Require Import Base Cxx Spec X86Vec X86 X86Lemmas X86Proofs X86Ops X86Shift Fp FpLemmas FKern FMath FMathProofs.
Set Implicit Arguments.

Section N.
Context (X : xty) (HX : xty_ok X) (HF : is_int (xT X) = false) (F : fops).
Local Notation w := (xw X).
Let HI : xty_ok (as_int X) := as_int_ok HX.
Let D (q : Z * Z) : Prop := word w (fst q) /\ word w (snd q).
Lemma W2 : (2 ^ w = 2 * 2 ^ (w - 1))%Z. Proof. rewrite (wf_eq HX HF). apply pw. Qed.
Lemma lor_word' x y : word w x -> word w y -> word w (Z.lor x y).
Proof. pose proof (w_pos HX). apply word_lor. lia. Qed.
Lemma one_word : word w 1. Proof. pose proof (w_pos HX). unfold word. pose proof (Z.pow_gt_1 2 w). lia. Qed.
Lemma lor1_mlane b : Z.lor 1 (mlane w b) = (if b then ones w else 1)%Z.
Proof. destruct b; unfold mlane. { rewrite lor_ones_word. reflexivity. pose proof (w_pos HX); lia. apply one_word. } reflexivity. Qed.

Lemma k_nextafter_lanes a b : wfv X a -> wfv X b -> k_nextafter X F a b = vmap2 (nxt w) a b.
Proof.
  apply kernel2. clear a b. intros p Hp HD. unfold k_nextafter. cbv zeta.
  pose proof (w_pos HX) as Pw. pose proof (wf_eq HX HF) as Ew.
  assert (HpI : length p = ext (as_int X)) by exact Hp.
  change (zerov (as_int X)) with (zerov X). change (v_fill (as_int X) 1%Z) with (v_fill X 1%Z).
  rewrite (k_zero Hp), !(k_const Hp).
  (* sign bits *)
  set (sgb := fun x : Z => if fsign w x then (2 ^ (w - 1))%Z else 0%Z).
  assert (Es : forall g : Z * Z -> Z, (forall q, D q -> word w (g q)) ->
    v_and (map g p) (map (fun _ => (2 ^ (w - 1))%Z) p) = map (fun q => sgb (g q)) p).
  { intros g Hg. unfold v_and. rewrite vmap2_same. apply (k_ext HD). intros q Hq. specialize (Hg q Hq). unfold sgb.
    rewrite Ew in Hg |- *. now apply land_sign. }
  rewrite !Es by (intros q []; assumption).
  assert (Ea : forall g : Z * Z -> Z, (forall q, D q -> word w (g q)) ->
    v_xor (map g p) (map (fun q => sgb (g q)) p) = map (fun q => fmag w (g q)) p).
  { intros g Hg. unfold v_xor. rewrite vmap2_same. apply (k_ext HD). intros q Hq. specialize (Hg q Hq). unfold sgb.
    rewrite Ew in Hg |- *. destruct (fsign (fw (xf X)) (g q)) eqn:S.
    - rewrite (neg_lane Hg), S. cbn [negb]. lia.
    - rewrite Z.lxor_0_r. unfold fmag, fsign in *. symmetry. apply Z.mod_small. unfold word in Hg. lia. }
  rewrite !Ea by (intros q []; assumption).
  assert (Lm : forall g : Z * Z -> Z, lw (as_int X) D (fun q => fmag w (g q))) by (intros g q _; apply (fmag_w HX HF)).
  assert (L0 : lw (as_int X) D (fun _ => 0%Z)) by (intros q _; apply word_0; change (xw (as_int X)) with w; lia).
  assert (Ls : forall x, word w (sgb x)) by (intros; apply (sgnb_word HX HF)).
  unfold v_xor, v_or. rewrite vmap2_same. rewrite (k_eq HI HpI HD) by auto. rewrite !(k_gt HI HpI HD) by (auto; intros q _; apply word_lxor; auto; change (xw (as_int X)) with w; lia).
  change (xw (as_int X)) with w. rewrite !vmap2_same.
  rewrite (k_add HpI HD F).
  2:{ intros q [? ?]; auto. }
  2:{ intros q _. rewrite lor_mlane, lor1_mlane. destruct (_ || _); [apply word_ones; lia|apply one_word]. }
  rewrite (k_blend HI HpI HD).
  2:{ intros q _. unfold lane_add. cbn. apply (mod_word HX). }
  2:{ intros q _. apply lor_word'; auto using one_word. }
  rewrite (k_eq HX Hp HD) by (intros q []; assumption).
  unfold isunord, cmp_ps. rewrite vmap2_same.
  rewrite (k_blend HX Hp HD).
  2:{ intros q _. destruct (lane_eq _ _ _). apply lor_word'; auto using one_word. unfold lane_add; cbn. apply (mod_word HX). }
  2:{ intros q [? ?]. now apply lor_word'. }
  rewrite (k_blend HX Hp HD).
  2:{ intros q [? ?]. destruct (_ || _). now apply lor_word'. destruct (lane_eq _ _ _). apply lor_word'; auto using one_word. unfold lane_add; cbn. apply (mod_word HX). }
  2:{ intros q [? ?]. assumption. }
  apply (k_ext HD). intros [x y] [Hx Hy]. cbn [fst snd] in *. unfold nxt.
  assert (Ef : lane_eq X x y = feq w x y). { unfold lane_eq. unfold is_int in HF. destruct (ek (xT X)); [discriminate|reflexivity]. }
  rewrite Ef. destruct (feq w x y); [reflexivity|]. destruct (fnan w x || fnan w y); [reflexivity|].
  change (lane_eq (as_int X) (fmag w x) 0%Z) with (fmag w x =? 0)%Z. destruct (fmag w x =? 0)%Z.
  - unfold sgb. rewrite Z.lor_comm. rewrite Ew. rewrite sign_mag_lor. lia. destruct (xf X); cbn; lia.
  - rewrite lor_mlane, lor1_mlane. unfold lane_add. cbn [is_int as_int xT ek].
    change (lane_gt (as_int X)) with (fun x y => sgn w x >? sgn w y)%Z. cbn beta. change (xw (as_int X)) with w.
    assert (S1 : (sgn w 0 >? sgn w (Z.lxor (sgb x) (sgb y)))%Z = xorb (fsign w x) (fsign w y)).
    { unfold sgb. rewrite Ew. destruct (fsign (fw (xf X)) x), (fsign (fw (xf X)) y); destruct (xf X); reflexivity. }
    assert (S2 : forall z, sgn w (fmag w z) = fmag w z).
    { intros z. rewrite Ew. unfold sgn. pose proof (@fmag_range (xf X) z). replace (fmag (fw (xf X)) z <? 2 ^ (fw (xf X) - 1))%Z with true by lia. reflexivity. }
    rewrite S1, !S2. destruct (_ || _); [|reflexivity]. unfold ones. rewrite <- (Z_mod_plus_full (x + -1) 1). f_equal. lia.
Qed.
Lemma nxt_word a b : word w a -> word w b -> word w (nxt w a b).
Proof.
  intros Ha Hb. unfold nxt. destruct (feq w a b); auto. destruct (_ || _); [now apply lor_word'|]. destruct (fmag w a =? 0)%Z; [|apply (mod_word HX)].
  pose proof (wf_eq HX HF) as Ew. rewrite Ew. unfold word. destruct (fsign (fw (xf X)) b); destruct (xf X); cbn; lia.
Qed.
Lemma x_nextafter_ok a b : shaped X a -> shaped X b -> is_map2 X (nxt w) a b (x_nextafter X F a b).
Proof. intros Ha Hb. apply vz2_map; auto using nxt_word. intros u v Hu Hv. now rewrite k_nextafter_lanes. Qed.
End N.

(** *** the lane function *)
Open Scope Z_scope.
Section S.
Context {f : fmt}.
Local Notation W := (fw f).
Lemma testbit_field x i : word W x -> Z.testbit (fmag W x) i = if i <? W - 1 then Z.testbit x i else false.
Proof.
  intros Hx. unfold fmag. destruct (i <? W - 1) eqn:Q.
  - destruct (Z_lt_le_dec i 0). { now rewrite !Z.testbit_neg_r. } apply Z.mod_pow2_bits_low. lia.
  - apply Z.mod_pow2_bits_high. destruct f; cbn in *; lia.
Qed.
Lemma lor_mag a b : fmag W (Z.lor a b) = Z.lor (fmag W a) (fmag W b).
Proof.
  unfold fmag. rewrite <- !Z.land_ones by (destruct f; cbn; lia). apply Z.land_lor_distr_l.
Qed.
Lemma lor_ge a b : 0 <= a -> 0 <= b -> a <= Z.lor a b.
Proof.
  intros Ha Hb. assert (H : Z.lor a b = a + Z.ldiff b a).
  { rewrite Z.add_nocarry_lxor.
    - rewrite Z.lxor_lor. 2:{ apply Z.bits_inj'. intros n Hn. rewrite Z.land_spec, Z.ldiff_spec, Z.bits_0. destruct (Z.testbit a n), (Z.testbit b n); reflexivity. }
      apply Z.bits_inj'. intros n Hn. rewrite !Z.lor_spec, Z.ldiff_spec. destruct (Z.testbit a n), (Z.testbit b n); reflexivity.
    - apply Z.bits_inj'. intros n Hn. rewrite Z.land_spec, Z.ldiff_spec, Z.bits_0. destruct (Z.testbit a n), (Z.testbit b n); reflexivity. }
  rewrite H. assert (0 <= Z.ldiff b a) by (apply Z.ldiff_nonneg; auto). lia.
Qed.
Lemma nan_lor a b : fnan W a = true \/ fnan W b = true -> fnan W (Z.lor a b) = true.
Proof.
  unfold fnan. rewrite lor_mag. pose proof (@fmag_range f a). pose proof (@fmag_range f b).
  intros [H1 | H1].
  - pose proof (@lor_ge (fmag W a) (fmag W b)). lia.
  - rewrite Z.lor_comm. pose proof (@lor_ge (fmag W b) (fmag W a)). lia.
Qed.
Lemma nxt_nan a b : fnan W a = true \/ fnan W b = true -> fnan W (nxt W a b) = true.
Proof.
  intros H. unfold nxt. assert (Q : fnan W a || fnan W b = true) by (destruct H as [-> | ->]; auto using orb_true_r).
  rewrite Q. replace (feq W a b) with false by (unfold feq; destruct (fnan W a), (fnan W b); try reflexivity; discriminate).
  now apply nan_lor.
Qed.
(** one step in the order of keys *)
Lemma nxt_step a b : word W a -> word W b -> fnan W a = false -> fnan W b = false -> fkey W a <> fkey W b ->
  fnan W (nxt W a b) = false /\
  fkey W (nxt W a b) = fkey W a + (if fkey W a <? fkey W b then 1 else -1).
Proof.
  intros Ha Hb Na Nb Nk. unfold nxt. unfold feq. rewrite Na, Nb. cbn [negb andb orb].
  replace (fkey W a =? fkey W b) with false by lia.
  destruct (word_split Ha) as [Ma Sa]. destruct (word_split Hb) as [Mb Sb].
  assert (Fi : finf W < 2 ^ (W - 1)) by (destruct f; reflexivity). assert (F0 : 1 < finf W) by (destruct f; reflexivity).
  unfold fnan in Na, Nb.
  assert (J : forall s m, 0 <= m <= finf W -> fnan W (m + (if s : bool then 2 ^ (W - 1) else 0)) = false /\
     fkey W (m + (if s : bool then 2 ^ (W - 1) else 0)) = if s then - m else m).
  { intros s m Hm. unfold fnan, fkey. rewrite fmag_join, fsign_join by lia. split; [lia|reflexivity]. }
  assert (Wm : forall s m, 0 <= m <= finf W -> (m + (if s : bool then 2 ^ (W - 1) else 0)) mod 2 ^ W = m + (if s : bool then 2 ^ (W - 1) else 0)).
  { intros s m Hm. apply Z.mod_small. apply word_join. lia. }
  destruct (fmag W a =? 0) eqn:Z0.
  - replace ((if fsign W b then 2 ^ (W - 1) else 0) + 1) with (1 + (if fsign W b then 2 ^ (W - 1) else 0)) by lia.
    destruct (J (fsign W b) 1) as [J1 J2]; [lia|]. split; [exact J1|]. rewrite J2.
    unfold fkey in *. destruct (fsign W a), (fsign W b); match goal with |- context [if ?c then 1 else -1] => destruct c eqn:? end; lia.
  - set (off := if xorb (fsign W a) (fsign W b) || (fmag W a >? fmag W b) then -1 else 1).
    assert (Ho : 0 <= fmag W a + off <= finf W).
    { unfold off. unfold fkey in Nk. destruct (fsign W a), (fsign W b); cbn [xorb orb]; destruct (fmag W a >? fmag W b) eqn:G; lia. }
    replace (a + off) with (fmag W a + off + (if fsign W a then 2 ^ (W - 1) else 0)) by lia.
    rewrite Wm by exact Ho. destruct (J (fsign W a) (fmag W a + off) Ho) as [J1 J2]. split; [exact J1|]. rewrite J2.
    unfold fkey, off in *. destruct (fsign W a), (fsign W b); cbn [xorb orb]; destruct (fmag W a >? fmag W b) eqn:G; cbn [orb];
    match goal with |- context [?x + (if ?c then 1 else -1)] => destruct c eqn:? end; lia.
Qed.
End S.
Close Scope Z_scope.
