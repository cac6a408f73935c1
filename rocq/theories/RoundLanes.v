(** The rounding functions: what each lane computes. *)
From Coq Require Import ZifyBool ZifyNat Reals Lra.
From Flocq Require Import Core IEEE754.BinarySingleNaN IEEE754.Binary.
From Verif Require Import Base Cxx Spec GenericProofs X86Vec X86 X86Lemmas X86Proofs X86Ops X86Shift Fp FpLemmas FpOps FMath FMathProofs FLane FFields FManip FManipLanes FScalbn Cvt CvtProofs LogbProofs Round.
Set Implicit Arguments.
Local Open Scope Z_scope.

(** trunc_sse2 *)
Definition trunc1 (c : cfg) (x : Z) : Z :=
  let e := (x / 2 ^ 52) mod 2 ^ 11 - 1023 + 12 in
  let small := if sse3 c then e <? 12 else e <? 0 in
  Z.ldiff x (srl64 (if small then 1 else e) (2 ^ 64 - 1)).
Lemma trunc_e x : word 64 x -> exists e, e = (x / 2 ^ 52) mod 2 ^ 11 - 1023 + 12 /\ -1011 <= e <= 1036 /\
  wrap 64 (wrap 64 (Z.land (x / 2 ^ 52) 0x7ff - 0x3ff) + 12) = wrap 64 e.
Proof.
  intros Hx. exists ((x / 2 ^ 52) mod 2 ^ 11 - 1023 + 12). split; auto. pose proof (Z.mod_pos_bound (x / 2 ^ 52) (2 ^ 11) ltac:(lia)). split; [lia|].
  change 0x7ff with (Z.ones 11). rewrite Z.land_ones by lia. unfold wrap. rewrite Zplus_mod_idemp_l. reflexivity.
Qed.
Lemma small_lane (s : bool) e : -1011 <= e <= 1036 -> (* e as 64-bit word; the mask duplicates the low (s) or the high dword *)
  let d := if s then mlane 32 (sgn 32 12 >? sgn 32 (wrap 64 e mod 2 ^ 32)) else mlane 32 (sgn 32 0 >? sgn 32 (wrap 64 e / 2 ^ 32)) in
  let m := d + 2 ^ 32 * d in
  Z.lor (Z.ldiff (wrap 64 e) m) (Z.land m 1) = if (if s then e <? 12 else e <? 0) then 1 else e.
Proof.
  intros He. cbv zeta.
  assert (D : (if s then mlane 32 (sgn 32 12 >? sgn 32 (wrap 64 e mod 2 ^ 32)) else mlane 32 (sgn 32 0 >? sgn 32 (wrap 64 e / 2 ^ 32))) = mlane 32 (if s then e <? 12 else e <? 0)).
  { destruct s; f_equal.
    - unfold wrap. change (2 ^ 64) with (2 ^ 32 * 2 ^ 32). rewrite Z.rem_mul_r by lia. rewrite Z.mul_comm, Z.mod_add, Z.mod_mod by lia.
      change (e mod 2 ^ 32) with (wrap 32 e). rewrite sgn_wrap by (cbn; lia). change (sgn 32 12) with 12. lia.
    - change (sgn 32 0) with 0. destruct (Z.ltb_spec e 0) as [N|N].
      + replace (wrap 64 e) with (e + 2 ^ 64) by (unfold wrap; apply (Z.mod_unique _ _ (-1)); lia).
        replace ((e + 2 ^ 64) / 2 ^ 32) with (2 ^ 32 - 1) by (apply (Z.div_unique _ _ _ (e + 2 ^ 32)); lia). reflexivity.
      + unfold wrap. rewrite Z.mod_small by lia. rewrite Z.div_small by lia. reflexivity. }
  rewrite D. clear D. assert (S : (if s then e <? 12 else e <? 0) = false -> 0 <= e) by (destruct s; lia).
  destruct (if s then e <? 12 else e <? 0); cbn [mlane].
  - change (ones 32 + 2 ^ 32 * ones 32) with (Z.ones 64). rewrite Z.ldiff_ones_r by lia.
    assert (Z.shiftr (wrap 64 e) 64 = 0) as ->. { rewrite Z.shiftr_div_pow2 by lia. apply Z.div_small. unfold wrap. apply Z.mod_pos_bound. lia. } reflexivity.
  - specialize (S eq_refl). change (0 + 2 ^ 32 * 0) with 0. rewrite Z.ldiff_0_r, Z.land_0_l, Z.lor_0_r. unfold wrap. apply Z.mod_small. lia.
Qed.
Lemma trunc_lanes c a b : word 64 a -> word 64 b -> trunc_sse2 c [a; b] = [trunc1 c a; trunc1 c b].
Proof.
  intros Ha Hb. unfold trunc_sse2, same. cbn [length repeat]. unfold srli, v_and, v_or, v_andnot, sub_epi, add_epi, cmpgt_epi.
  cbn [vmap map vmap2 split2].
  destruct (trunc_e Ha) as (ea & Ea & Ra & ->). destruct (trunc_e Hb) as (eb' & Eb & Rb & ->).
  assert (Q : join2 32 (if sse3 c then shuffle_epi32 2 2 0 0
      [mlane 32 (sgn 32 (12 mod 2 ^ 32) >? sgn 32 (wrap 64 ea mod 2 ^ 32)); mlane 32 (sgn 32 (12 / 2 ^ 32) >? sgn 32 (wrap 64 ea / 2 ^ 32));
       mlane 32 (sgn 32 (12 mod 2 ^ 32) >? sgn 32 (wrap 64 eb' mod 2 ^ 32)); mlane 32 (sgn 32 (12 / 2 ^ 32) >? sgn 32 (wrap 64 eb' / 2 ^ 32))]
     else shuffle_epi32 3 3 1 1
      [mlane 32 (sgn 32 (12 mod 2 ^ 32) >? sgn 32 (wrap 64 ea mod 2 ^ 32)); mlane 32 (sgn 32 (12 / 2 ^ 32) >? sgn 32 (wrap 64 ea / 2 ^ 32));
       mlane 32 (sgn 32 (12 mod 2 ^ 32) >? sgn 32 (wrap 64 eb' mod 2 ^ 32)); mlane 32 (sgn 32 (12 / 2 ^ 32) >? sgn 32 (wrap 64 eb' / 2 ^ 32))])
   = [let d := if sse3 c then mlane 32 (sgn 32 12 >? sgn 32 (wrap 64 ea mod 2 ^ 32)) else mlane 32 (sgn 32 0 >? sgn 32 (wrap 64 ea / 2 ^ 32)) in d + 2 ^ 32 * d;
      let d := if sse3 c then mlane 32 (sgn 32 12 >? sgn 32 (wrap 64 eb' mod 2 ^ 32)) else mlane 32 (sgn 32 0 >? sgn 32 (wrap 64 eb' / 2 ^ 32)) in d + 2 ^ 32 * d]).
  { destruct (sse3 c); reflexivity. }
  rewrite Q. clear Q. cbn [vmap2 nth]. cbv zeta.
  pose proof (small_lane (sse3 c) Ra) as A. pose proof (small_lane (sse3 c) Rb) as B. cbv zeta in A, B. rewrite A, B. clear A B.
  rewrite !Z.ldiff_0_r. unfold trunc1. rewrite <- Ea, <- Eb. reflexivity.
Qed.

Section Lane.
Context (X : xty) (nn : nans) (HX : xty_ok X) (HF : is_int (xT X) = false) {k : nat}.
Local Notation w := (xw X).
Local Notation f := (xf X).
Definition tx1 (x : Z) : Z := fof_int f (sgn 32 (fto_int nn f mode_ZR 32 x)).
Lemma l_tx v x : L X k v x -> L X k (v_tx X nn v) (tx1 x).
Proof.
  intros Hx. assert (E : v_tx X nn v = map tx1 v).
  { unfold v_tx, of32, cvtt32, tx1. destruct (xT_float HX HF) as [(-> & -> & _) | (-> & -> & _)]; cbn [Nat.eqb];
      [unfold cvtepi32_ps, cvttps_epi32|unfold cvtepi32_pd, cvttpd_epi32]; unfold vmap; rewrite map_map; reflexivity. }
  rewrite E. apply l_map; auto. intros. apply xw_f; auto. apply (@enc_word f).
Qed.
Lemma l_round md v x : L X k v x -> L X k (round_fp nn f md v) (fround nn f md x).
Proof. intros Hx. unfold round_fp. apply l_map; auto. intros. apply xw_f; auto. apply (@enc_word f). Qed.
Lemma fone_word : word w (fone w). Proof. destruct (@w_cases X HX HF) as [-> | ->]; unfold word; cbn; lia. Qed.
Definition ceil1 (x : Z) : Z :=
  if native_round X then fround nn f mode_UP x else fadd nn f (tx1 x) (if flt w (tx1 x) x then fone w else 0).
Lemma k_ceil_lane v x : L X k v x -> L X k (k_ceil X nn v) (ceil1 x).
Proof.
  intros Hx. pose proof (L_lt Hx) as Hk. unfold k_ceil, ceil1. destruct (native_round X); [now apply l_round|]. cbv zeta. assert (Ht := l_tx Hx).
  exact (lf_add HX HF nn Ht (l_sel HX (lm_cmp (flt w) Ht Hx) (l_fill Hk fone_word))).
Qed.
Definition floor1 (x : Z) : Z :=
  if native_round X then fround nn f mode_DN x else fsub nn f (tx1 x) (if flt w x (tx1 x) then fone w else 0).
Lemma k_floor_lane v x : L X k v x -> L X k (k_floor X nn v) (floor1 x).
Proof.
  intros Hx. pose proof (L_lt Hx) as Hk. unfold k_floor, floor1. destruct (native_round X); [now apply l_round|]. cbv zeta. assert (Ht := l_tx Hx).
  exact (lf_sub HX HF nn Ht (l_sel HX (lm_cmp (fun a b => flt w b a) Ht Hx) (l_fill Hk fone_word))).
Qed.
Definition truncl (x : Z) : Z :=
  if native_round X then fround nn f mode_ZR x else if (esz (xT X) =? 4)%nat then tx1 x else trunc1 (xc X) x.
Lemma trunc1_word c x : word 64 x -> word 64 (trunc1 c x).
Proof.
  intros Hx. unfold trunc1. cbv zeta. apply word_ldiff; [lia|auto].
Qed.
Lemma k_trunc_lane v x : L X k v x -> L X k (k_trunc X nn v) (truncl x).
Proof.
  intros Hx. unfold k_trunc, truncl. destruct (native_round X) eqn:N; [now apply l_round|]. destruct (esz (xT X) =? 4)%nat eqn:E4; [now apply l_tx|].
  destruct (xT_float HX HF) as [(E & _) | (E & _ & Ew)]; [rewrite E in E4; discriminate|].
  unfold native_round in N. apply orb_false_iff in N. destruct (wfv_128 HX E (proj1 N) (L_wf Hx)) as (a & b & -> & Wa & Wb).
  rewrite trunc_lanes by auto. change [trunc1 (xc X) a; trunc1 (xc X) b] with (map (trunc1 (xc X)) [a; b]). apply l_map; auto. rewrite Ew. apply trunc1_word.
Qed.
Definition rint1 (x : Z) : Z :=
  if native_round X then fround nn f mode_NE x
  else
    let s := sbit f (fsign w x) in
    let a := Z.lxor x s in
    let o := rint_offset w in
    let tmp := Z.lor (fsub nn f (fadd nn f a o) o) s in
    if fle w o a then (if (esz (xT X) =? 4)%nat then x else tmp) else tmp.
Lemma off_word : word w (rint_offset w). Proof. destruct (@w_cases X HX HF) as [-> | ->]; unfold word; cbn; lia. Qed.
Lemma k_rint_lane v x : L X k v x -> L X k (k_rint X nn v) (rint1 x).
Proof.
  intros Hx. pose proof (L_lt Hx) as Hk. unfold k_rint, rint1. destruct (native_round X); [now apply l_round|]. cbv zeta.
  assert (Hs := lf_sign HX HF Hx). assert (Ha := l_xor HX Hx Hs). assert (Ho := l_fill Hk off_word).
  assert (Hm := lm_cmp (fun a b => fle w b a) Ha Ho). cbv beta in Hm.
  assert (Ht := l_or HX (lf_sub HX HF nn (lf_add HX HF nn Ha Ho) Ho) Hs).
  assert (Hr : L X k (if (esz (xT X) =? 4)%nat then v else v_or (v_sub X (ieee nn) (v_add X (ieee nn) (v_xor v (masksign X v)) (v_fill X (rint_offset w))) (v_fill X (rint_offset w))) (masksign X v))
    (if (esz (xT X) =? 4)%nat then x else Z.lor (fsub nn f (fadd nn f (Z.lxor x (sbit f (fsign w x))) (rint_offset w)) (rint_offset w)) (sbit f (fsign w x)))) by (destruct (_ =? _)%nat; auto).
  assert (H := l_or HX (l_seln HX Hm Ht) (l_sel HX Hm Hr)).
  destruct (fle w _ _); [rewrite Z.lor_0_l in H|rewrite Z.lor_0_r in H]; exact H.
Qed.
Definition round1 (x : Z) : Z :=
  let off := Z.lor (sbit f (fsign w x)) (pred_half w) in
  if is256 X then fround nn f mode_ZR (if (esz (xT X) =? 4)%nat then Z.land x off else fadd nn f x off)
  else if sse41 (xc X) then fround nn f mode_ZR (fadd nn f x off)
  else fadd nn f (tx1 x) (tx1 (fmul nn f (fsub nn f x (tx1 x)) (near2 w))).
Lemma half_word : word w (pred_half w). Proof. destruct (@w_cases X HX HF) as [-> | ->]; unfold word; cbn; lia. Qed.
Lemma near2_word : word w (near2 w). Proof. destruct (@w_cases X HX HF) as [-> | ->]; unfold word; cbn; lia. Qed.
Lemma k_round_lane v x : L X k v x -> L X k (k_round X nn v) (round1 x).
Proof.
  intros Hx. pose proof (L_lt Hx) as Hk. unfold k_round, round1. cbv zeta. assert (Ho := l_or HX (lf_sign HX HF Hx) (l_fill Hk half_word)).
  destruct (is256 X); [apply l_round; destruct (_ =? _)%nat; [exact (l_and HX Hx Ho)|exact (lf_add HX HF nn Hx Ho)]|].
  destruct (sse41 (xc X)); [apply l_round; exact (lf_add HX HF nn Hx Ho)|]. assert (Ht := l_tx Hx).
  exact (lf_add HX HF nn Ht (l_tx (lf_mul HX HF nn (lf_sub HX HF nn Hx Ht) (l_fill Hk near2_word)))).
Qed.
Definition irint1 (x : Z) : Z := fto_int nn F32 mode_NE 32 x.
Definition iround1 (x : Z) : Z :=
  let i := fto_int nn F32 mode_ZR 32 x in
  wrap 32 (i + fto_int nn F32 mode_ZR 32 (fmul nn F32 (fsub nn F32 x (fof_int F32 (sgn 32 i))) (near2 32))).
Lemma k_iround_lane v x : esz (xT X) = 4%nat -> L X k v x -> L X k (k_iround32 X nn v) (iround1 x).
Proof.
  intros E Hx. pose proof (L_lt Hx) as Hk. destruct (xT_float HX HF) as [(_ & Ef & Ew) | (E' & _)]; [|congruence].
  assert (H32 : forall md, (forall x, word w x -> word w (fto_int nn F32 md 32 x))) by (intros; rewrite Ew; apply fto_int_word; lia).
  assert (Hi := l_map _ (H32 mode_ZR) Hx).
  assert (Ht : L X k (cvtepi32_ps (cvttps_epi32 nn v)) (fof_int F32 (sgn 32 (fto_int nn F32 mode_ZR 32 x)))).
  { unfold cvtepi32_ps. apply (l_map (fun x => fof_int F32 (sgn 32 x))); auto. intros. rewrite Ew. apply (@enc_word F32). }
  assert (Hn : L X k (v_fill X (near2 32)) (near2 32)) by (apply l_fill; auto; rewrite Ew; unfold word; cbn; lia).
  assert (Hr := lf_mul HX HF nn (lf_sub HX HF nn Hx Ht) Hn). rewrite Ef in Hr.
  unfold k_iround32, iround1. cbv zeta. unfold add_epi. apply (@l_vmap2 X k (fun x y => wrap 32 (x + y))); auto.
  - intros. rewrite Ew. apply wrap_word. lia.
  - exact (l_map _ (H32 mode_ZR) Hr).
Qed.
Lemma k_irint_lane v x : esz (xT X) = 4%nat -> L X k v x -> L X k (cvtps_epi32 nn v) (irint1 x).
Proof.
  intros E Hx. destruct (xT_float HX HF) as [(_ & Ef & Ew) | (E' & _)]; [|congruence]. unfold cvtps_epi32, irint1. apply (l_map (fto_int nn F32 mode_NE 32)); auto.
  intros. rewrite Ew. apply fto_int_word. lia.
Qed.
End Lane.
