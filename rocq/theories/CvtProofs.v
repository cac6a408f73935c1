(** Proofs about the integer/floating-point lane conversions. *)
From Coq Require Import ZifyBool ZifyNat Reals Lra.
From Flocq Require Import Core IEEE754.BinarySingleNaN IEEE754.Binary.
From Verif Require Import Base Cxx Spec GenericProofs X86Vec X86 X86Lemmas X86Proofs X86Ops X86Mem Fp FpLemmas FpOps FMathProofs FFields Cvt.
Set Implicit Arguments.
Local Open Scope Z_scope.

(** *** Bits *)
Lemma ldiff_high k x : 0 <= k <= 64 -> word 64 x -> Z.ldiff x (2 ^ 64 - 2 ^ k) = x mod 2 ^ k.
Proof.
  intros Hk Hx. assert (E : 2 ^ 64 - 2 ^ k = Z.shiftl (Z.ones (64 - k)) k).
  { rewrite Z.shiftl_mul_pow2, Z.ones_equiv by lia. replace 64 with (64 - k + k) at 1 by lia. rewrite Z.pow_add_r by lia. lia. }
  apply Z.bits_inj'. intros i Hi. rewrite Z.ldiff_spec, E, Z.shiftl_spec by lia.
  destruct (Z.lt_ge_cases i k).
  - rewrite Z.mod_pow2_bits_low by lia. rewrite (Z.testbit_neg_r _ (i - k)) by lia. now rewrite andb_true_r.
  - rewrite Z.mod_pow2_bits_high by lia. destruct (Z.lt_ge_cases i 64).
    + rewrite Z.ones_spec_low by lia. now rewrite andb_false_r.
    + rewrite (@word_bits 64) by (auto; lia). reflexivity.
Qed.
Lemma land_high k x : 0 <= k <= 64 -> word 64 x -> Z.land (2 ^ 64 - 2 ^ k) x = 2 ^ k * (x / 2 ^ k).
Proof.
  intros Hk Hx. assert (E : 2 ^ 64 - 2 ^ k = Z.shiftl (Z.ones (64 - k)) k).
  { rewrite Z.shiftl_mul_pow2, Z.ones_equiv by lia. replace 64 with (64 - k + k) at 1 by lia. rewrite Z.pow_add_r by lia. lia. }
  rewrite Z.mul_comm, <- Z.shiftl_mul_pow2, <- Z.shiftr_div_pow2 by lia.
  apply Z.bits_inj'. intros i Hi. rewrite Z.land_spec, E, !Z.shiftl_spec by lia.
  destruct (Z.lt_ge_cases i k).
  - rewrite (Z.testbit_neg_r _ (i - k)) by lia. rewrite (Z.testbit_neg_r _ (i - k)) by lia. reflexivity.
  - rewrite Z.shiftr_spec by lia. replace (i - k + k) with i by ring. destruct (Z.lt_ge_cases i 64).
    + rewrite Z.ones_spec_low by lia. reflexivity.
    + rewrite (@word_bits 64 x i) by (auto; lia). now rewrite andb_false_r.
Qed.

(** *** Lane functions *)
Definition u64l (nn : nans) (x : Z) : Z := fadd nn F64 (fsub nn F64 (Z.lor (x / 2 ^ 32) exp84) adj84) (x mod 2 ^ 32 + exp52).
Definition i64l (nn : nans) (x : Z) : Z :=
  fadd nn F64 (fsub nn F64 (wrap 64 (2 ^ 32 * wrap 32 (sgn 32 (x / 2 ^ 32) / 2 ^ 16) + exp67m3)) adj67) (x mod 2 ^ 48 + exp52).
(** what the SSE4.1 version computes: the low dword instead of the high one *)
Definition i64l_sse4 (nn : nans) (x : Z) : Z :=
  fadd nn F64 (fsub nn F64 (wrap 64 (wrap 32 (sgn 32 (x mod 2 ^ 32) / 2 ^ 16) + exp67m3)) adj67) (x mod 2 ^ 48 + exp52).
Definition f64_u64l (nn : nans) (x : Z) : Z := Z.lxor (fadd nn F64 x exp52) exp52.
Definition f64_i64l (nn : nans) (x : Z) : Z := wrap 64 (fadd nn F64 x exp51m3 - exp51m3).
Definition u32l (nn : nans) (x : Z) : Z :=
  fadd nn F32 (fadd nn F32 (fof_int F32 (sgn 32 (x / 2 ^ 1))) (fof_int F32 (sgn 32 (x / 2 ^ 1)))) (fof_int F32 (sgn 32 (Z.land x 1))).
Definition f32_u32l (nn : nans) (x : Z) : Z := Z.lxor (fadd nn F32 x 0x4a800000) 0x4a800000.

Lemma sp16 x : word 64 x -> (x mod 2 ^ 32) mod 2 ^ 16 + 2 ^ 16 * (x mod 2 ^ 32 / 2 ^ 16) = x mod 2 ^ 32.
Proof. intros _. pose proof (Z.div_mod (x mod 2 ^ 32) (2 ^ 16)). lia. Qed.
Lemma sp16h x : word 64 x -> (x / 2 ^ 32) mod 2 ^ 16 + 2 ^ 16 * (x / 2 ^ 32 / 2 ^ 16) = x / 2 ^ 32.
Proof. intros _. pose proof (Z.div_mod (x / 2 ^ 32) (2 ^ 16)). lia. Qed.
Lemma mod48 x : x mod 2 ^ 32 + 2 ^ 32 * ((x / 2 ^ 32) mod 2 ^ 16) = x mod 2 ^ 48.
Proof. change (2 ^ 48) with (2 ^ 32 * 2 ^ 16). rewrite Z.rem_mul_r by lia. reflexivity. Qed.

Lemma blend_cc a b : word 64 a -> word 64 b ->
  blend_epi16 0xcc [a; b] [exp52; exp52] = [a mod 2 ^ 32 + exp52; b mod 2 ^ 32 + exp52].
Proof.
  intros Ha Hb. unfold blend_epi16.
  cbn -[Z.add Z.mul Z.div Z.modulo Z.pow exp52]. rewrite !sp16 by auto. reflexivity.
Qed.
Lemma blend_88 a b : word 64 a -> word 64 b ->
  blend_epi16 0x88 [a; b] [exp52; exp52] = [a mod 2 ^ 48 + exp52; b mod 2 ^ 48 + exp52].
Proof.
  intros Ha Hb. unfold blend_epi16. cbn -[Z.add Z.mul Z.div Z.modulo Z.pow exp52]. rewrite !sp16 by auto.
  assert (E : forall x, x mod 2 ^ 32 + 2 ^ 32 * ((x / 2 ^ 32) mod 2 ^ 16 + 2 ^ 16 * (exp52 / 2 ^ 32 / 2 ^ 16)) = x mod 2 ^ 48 + exp52).
  { intros x. rewrite <- mod48. change (exp52 / 2 ^ 32 / 2 ^ 16) with 0x4330. unfold exp52. lia. }
  now rewrite !E.
Qed.
Lemma srai_word x : 0 <= wrap 32 x < 2 ^ 32. Proof. unfold wrap. apply Z.mod_pos_bound. reflexivity. Qed.
Lemma srai64 x : word 64 x -> let y := wrap 32 (sgn 32 (x mod 2 ^ 32) / 2 ^ 16) + 2 ^ 32 * wrap 32 (sgn 32 (x / 2 ^ 32) / 2 ^ 16) in
  word 64 y /\ y mod 2 ^ 32 = wrap 32 (sgn 32 (x mod 2 ^ 32) / 2 ^ 16) /\ y / 2 ^ 32 = wrap 32 (sgn 32 (x / 2 ^ 32) / 2 ^ 16).
Proof.
  intros Hx y. set (p := wrap 32 _) in y. set (q := wrap 32 _) in y.
  assert (0 <= p < 2 ^ 32) by (unfold p; apply srai_word). assert (0 <= q < 2 ^ 32) by (unfold q; apply srai_word).
  unfold y, word. split; [lia|]. split.
  - rewrite Z.mul_comm, Z.mod_add, Z.mod_small by lia. reflexivity.
  - rewrite Z.mul_comm, Z.div_add, Z.div_small by lia. reflexivity.
Qed.
Lemma blend_33 a b : word 64 a -> word 64 b ->
  blend_epi16 0x33 [0; 0] [a; b] = [a mod 2 ^ 32; b mod 2 ^ 32].
Proof.
  intros Ha Hb. unfold blend_epi16. cbn -[Z.add Z.mul Z.div Z.modulo Z.pow]. rewrite !sp16 by auto.
  change (0 / 2 ^ 32) with 0. change (0 mod 2 ^ 16) with 0. change (0 / 2 ^ 16) with 0. f_equal; [lia|f_equal; lia].
Qed.
Lemma lanes_u64_sse c nn a b : word 64 a -> word 64 b -> cvt_u64_f64_sse c nn [a; b] = [u64l nn a; u64l nn b].
Proof.
  intros Ha Hb. unfold cvt_u64_f64_sse, same. cbn [length repeat]. unfold srli. cbn [vmap map v_or vmap2].
  replace (if sse41 c then _ else _) with [a mod 2 ^ 32 + exp52; b mod 2 ^ 32 + exp52];
    [unfold u64l, vadd, vsub; cbn [vmap2]; reflexivity|].
  destruct (sse41 c); [symmetry; apply blend_cc; auto|]. unfold v_and, v_or, v_andnot. cbn [vmap2].
  change 0xffffffff00000000 with (2 ^ 64 - 2 ^ 32). rewrite !ldiff_high by (auto; lia).
  change (Z.land _ exp52) with (2 ^ 52 * 0x433). rewrite !(Z.lor_comm (2 ^ 52 * 0x433)).
  assert (E : forall x, Z.lor (x mod 2 ^ 32) (2 ^ 52 * 0x433) = x mod 2 ^ 32 + exp52).
  { intros x. apply (@lor_low F64). pose proof (Z.mod_pos_bound x (2 ^ 32) ltac:(lia)). cbn [mw]. lia. }
  now rewrite !E.
Qed.
Lemma b48 x : Z.lor (Z.land 0xffff000000000000 exp52) (Z.ldiff x 0xffff000000000000) = Z.lor (Z.ldiff x 0xffff000000000000) (2 ^ 52 * 0x433).
Proof. change (Z.land _ exp52) with (2 ^ 52 * 0x433). apply Z.lor_comm. Qed.
Lemma lanes_i64_sse2 c nn a b : sse41 c = false -> word 64 a -> word 64 b -> cvt_i64_f64_sse c nn [a; b] = [i64l nn a; i64l nn b].
Proof.
  intros Hc Ha Hb. unfold cvt_i64_f64_sse, same. rewrite Hc. cbn [length repeat].
  unfold srai32_64, srai. cbn [split2 vmap map join2]. unfold v_and, v_or, v_andnot, vadd, vsub, add_epi. cbn [vmap2].
  change 0xffffffff00000000 with (2 ^ 64 - 2 ^ 32). rewrite !land_high by (try lia; apply srai64; auto).
  rewrite !(proj2 (proj2 (srai64 Ha))), !(proj2 (proj2 (srai64 Hb))). rewrite !b48.
  change 0xffff000000000000 with (2 ^ 64 - 2 ^ 48). rewrite !ldiff_high by (auto; lia).
  assert (E : forall x, Z.lor (x mod 2 ^ 48) (2 ^ 52 * 0x433) = x mod 2 ^ 48 + exp52).
  { intros x. apply (@lor_low F64). pose proof (Z.mod_pos_bound x (2 ^ 48) ltac:(lia)). cbn [mw]. lia. }
  rewrite !E. unfold i64l. reflexivity.
Qed.
Lemma lanes_i64_sse4 c nn a b : sse41 c = true -> word 64 a -> word 64 b -> cvt_i64_f64_sse c nn [a; b] = [i64l_sse4 nn a; i64l_sse4 nn b].
Proof.
  intros Hc Ha Hb. unfold cvt_i64_f64_sse, same. rewrite Hc. cbn [length repeat].
  unfold srai32_64, srai. cbn [split2 vmap map join2]. rewrite blend_88 by auto.
  rewrite blend_33 by (apply srai64; auto). rewrite (proj1 (proj2 (srai64 Ha))), (proj1 (proj2 (srai64 Hb))). unfold vadd, vsub, add_epi, i64l_sse4. cbn [vmap2]. reflexivity.
Qed.

(** *** Lifting to registers: [K] acts on every lane of a register as [k] *)
Lemma wfv_128 X v : xty_ok X -> esz (xT X) = 8%nat -> is256 X = false -> wfv X v -> exists a b, v = [a; b] /\ word 64 a /\ word 64 b.
Proof.
  intros (_ & _ & _ & Hv) E V [L W]. unfold is256 in V. assert (xvs X = 16%nat) as V' by (destruct Hv as [H | [H _]]; rewrite H in V; auto; discriminate).
  unfold ext in L. rewrite V', E in L. unfold words, xw, ew in W. rewrite E in W. destruct v as [|a [|b [|]]]; try discriminate L.
  exists a, b. inversion W as [|? ? W1 W2]; subst. inversion W2; subst. auto.
Qed.
Lemma wfv_256 X v : xty_ok X -> esz (xT X) = 8%nat -> is256 X = true -> wfv X v ->
  exists a b c d, v = [a; b; c; d] /\ word 64 a /\ word 64 b /\ word 64 c /\ word 64 d.
Proof.
  intros (_ & _ & _ & Hv) E V [L W]. unfold is256 in V. assert (xvs X = 32%nat) as V' by (destruct Hv as [H | [H _]]; rewrite H in V; auto; discriminate).
  unfold ext in L. rewrite V', E in L. unfold words, xw, ew in W. rewrite E in W. destruct v as [|a [|b [|c [|d [|]]]]]; try discriminate L.
  exists a, b, c, d. inversion W as [|? ? W1 W2]; subst. inversion W2 as [|? ? W3 W4]; subst. inversion W4 as [|? ? W5 W6]; subst. inversion W6; subst. auto.
Qed.
Lemma mux1_4 K a b c d : mux1 K [a; b; c; d] = K [a; b] ++ K [c; d]. Proof. reflexivity. Qed.
Lemma is256_avx X : xty_ok X -> is256 X = true -> avx (xc X) = true.
Proof. intros (_ & _ & _ & Hv) V. unfold is256 in V. destruct Hv as [H | [_ H]]; auto. rewrite H in V. discriminate. Qed.

Lemma split_sum x y : 0 <= x < 2 ^ 32 -> (x + 2 ^ 32 * y) mod 2 ^ 32 = x /\ (x + 2 ^ 32 * y) / 2 ^ 32 = y.
Proof. intros. rewrite Z.mul_comm, Z.mod_add, Z.div_add, Z.mod_small, Z.div_small by lia. lia. Qed.

Section Kern.
Context {X : xty} (HX : xty_ok X) (nn : nans).
Lemma k_u64 v : esz (xT X) = 8%nat -> wfv X v -> cvt_to_f X false nn v = map (u64l nn) v.
Proof.
  intros E Hv. unfold cvt_to_f. rewrite E. cbn [Nat.eqb]. destruct (is256 X) eqn:V.
  - destruct (wfv_256 HX E V Hv) as (a & b & c & d & -> & Ha & Hb & Hc & Hd). unfold cvt_u64_f64_avx. destruct (avx2 (xc X)).
    + unfold blend_epi32, same. cbn [length repeat split2 Nat.mul]. cbn -[Z.add Z.mul Z.div Z.modulo Z.pow exp52 fadd fsub exp84 adj84 Z.lor].
      unfold u64l. change (2 ^ 32 * (exp52 / 2 ^ 32)) with exp52. reflexivity.
    + rewrite mux1_4, !lanes_u64_sse by auto. reflexivity.
  - destruct (wfv_128 HX E V Hv) as (a & b & -> & Ha & Hb). rewrite lanes_u64_sse by auto. reflexivity.
Qed.
(** the signed version is right on 128-bit vectors without SSE4.1 and on 256-bit vectors with AVX2 *)
Definition i64_good : Prop := is256 X = false /\ sse41 (xc X) = false \/ is256 X = true /\ avx2 (xc X) = true.
Lemma k_i64 v : esz (xT X) = 8%nat -> i64_good -> wfv X v -> cvt_to_f X true nn v = map (i64l nn) v.
Proof.
  intros E G Hv. unfold cvt_to_f. rewrite E. cbn [Nat.eqb]. destruct G as [[V C] | [V C]]; rewrite V.
  - destruct (wfv_128 HX E V Hv) as (a & b & -> & Ha & Hb). rewrite lanes_i64_sse2 by auto. reflexivity.
  - destruct (wfv_256 HX E V Hv) as (a & b & c & d & -> & Ha & Hb & Hc & Hd). unfold cvt_i64_f64_avx. rewrite C.
    replace (blend_epi16_256 0x88 [a; b; c; d] (same exp52 [a; b; c; d]))
      with (blend_epi16 0x88 [a; b] [exp52; exp52] ++ blend_epi16 0x88 [c; d] [exp52; exp52]) by reflexivity.
    rewrite !blend_88 by auto. unfold same. cbn [length repeat app].
    unfold blend_epi32, srai32_64, srai. cbn -[Z.add Z.mul Z.div Z.modulo Z.pow fadd fsub exp67m3 adj67 exp52 wrap sgn].
    rewrite (proj2 (proj2 (srai64 Ha))), (proj2 (proj2 (srai64 Hb))), (proj2 (proj2 (srai64 Hc))), (proj2 (proj2 (srai64 Hd))).
    change (0 mod 2 ^ 32) with 0. rewrite !Z.add_0_l. unfold i64l. reflexivity.
Qed.
Lemma k_i64_bad v : esz (xT X) = 8%nat -> ~ i64_good -> wfv X v -> cvt_to_f X true nn v = map (i64l_sse4 nn) v.
Proof.
  intros E G Hv. unfold cvt_to_f. rewrite E. cbn [Nat.eqb]. unfold i64_good in G. destruct (is256 X) eqn:V.
  - destruct (wfv_256 HX E V Hv) as (a & b & c & d & -> & Ha & Hb & Hc & Hd). unfold cvt_i64_f64_avx.
    destruct (avx2 (xc X)) eqn:A2; [exfalso; apply G; right; auto|].
    assert (S4 : sse41 (xc X) = true) by (apply HX; apply is256_avx; auto).
    rewrite mux1_4, !lanes_i64_sse4 by auto. cbn [app map]. reflexivity.
  - destruct (wfv_128 HX E V Hv) as (a & b & -> & Ha & Hb). destruct (sse41 (xc X)) eqn:S4; [|exfalso; apply G; left; auto].
    rewrite lanes_i64_sse4 by auto. reflexivity.
Qed.
Lemma vmap2_repeat_l {A B C} (g : A -> B -> C) (c : B) (v : list A) : vmap2 g v (repeat c (length v)) = map (fun x => g x c) v.
Proof. induction v; cbn; [|rewrite IHv]; reflexivity. Qed.
Lemma vmap2_maps {A B C D} (g : B -> C -> D) (h : A -> B) (k : A -> C) v : vmap2 g (map h v) (map k v) = map (fun x => g (h x) (k x)) v.
Proof. induction v; cbn; [|rewrite IHv]; reflexivity. Qed.
Lemma vmap2_map_l {A B C D} (g : B -> C -> D) (h : A -> B) v u : vmap2 g (map h v) u = vmap2 (fun x => g (h x)) v u.
Proof. revert u. induction v; intros [|]; cbn; auto. f_equal. apply IHv. Qed.
Lemma mux1_map (k : Z -> Z) v : mux1 (map k) v = map k v.
Proof. unfold mux1, lo_half, hi_half. rewrite <- map_app, firstn_skipn. reflexivity. Qed.
Lemma mux1_ext (K K' : vec -> vec) v : (forall u, K u = K' u) -> mux1 K v = mux1 K' v.
Proof. intros H. unfold mux1. now rewrite !H. Qed.
Lemma u32_map v : cvt_u32_f32 nn v = map (u32l nn) v.
Proof.
  unfold cvt_u32_f32, vadd, cvtepi32_ps, v_and, same, srli, vmap. rewrite vmap2_repeat_l, !map_map, !vmap2_maps. unfold u32l. cbv beta. reflexivity.
Qed.
Lemma f32_u32_map v : cvt_f32_u32 nn v = map (f32_u32l nn) v.
Proof. unfold cvt_f32_u32, v_xor, vadd, same. rewrite vmap2_repeat_l. rewrite vmap2_map_l, vmap2_repeat_l. reflexivity. Qed.
Lemma f64_u64_map v : cvt_f64_u64_sse nn v = map (f64_u64l nn) v.
Proof. unfold cvt_f64_u64_sse, v_xor, vadd, same. rewrite vmap2_repeat_l. rewrite vmap2_map_l, vmap2_repeat_l. reflexivity. Qed.
Lemma f64_i64_map v : cvt_f64_i64_sse nn v = map (f64_i64l nn) v.
Proof. unfold cvt_f64_i64_sse, sub_epi, vadd, same. rewrite vmap2_repeat_l. rewrite vmap2_map_l, vmap2_repeat_l. reflexivity. Qed.
Lemma k_i32 v : esz (xT X) = 4%nat -> cvt_to_f X true nn v = map (fun x => fof_int F32 (sgn 32 x)) v.
Proof. intros E. unfold cvt_to_f. rewrite E. reflexivity. Qed.
Lemma k_u32 v : esz (xT X) = 4%nat -> cvt_to_f X false nn v = map (u32l nn) v.
Proof.
  intros E. unfold cvt_to_f, cvt_u32_f32_256. rewrite E. cbn [Nat.eqb]. destruct (is256 X), (avx2 (xc X)); try apply u32_map.
  rewrite (mux1_ext _ (fun u => map _ u) _ u32_map). apply mux1_map.
Qed.
Lemma k_f32_i32 v : esz (xT X) = 4%nat -> cvt_of_f X true nn v = map (fto_int nn F32 mode_NE 32) v.
Proof. intros E. unfold cvt_of_f. rewrite E. reflexivity. Qed.
Lemma k_f32_u32 v : esz (xT X) = 4%nat -> cvt_of_f X false nn v = map (f32_u32l nn) v.
Proof. intros E. unfold cvt_of_f. rewrite E. apply f32_u32_map. Qed.
Lemma k_f64_i64 v : esz (xT X) = 8%nat -> cvt_of_f X true nn v = map (f64_i64l nn) v.
Proof.
  intros E. unfold cvt_of_f, cvt_f64_i64_avx. rewrite E. cbn [Nat.eqb]. destruct (is256 X), (avx2 (xc X)); try apply f64_i64_map.
  rewrite (mux1_ext _ (fun u => map _ u) _ f64_i64_map). apply mux1_map.
Qed.
Lemma k_f64_u64 v : esz (xT X) = 8%nat -> cvt_of_f X false nn v = map (f64_u64l nn) v.
Proof. intros E. unfold cvt_of_f, cvt_f64_u64_avx. rewrite E. cbn [Nat.eqb]. destruct (is256 X); apply f64_u64_map. Qed.
End Kern.

(** *** Values *)
(** [y] is the float nearest to the integer [n] (ties to even) *)
Definition nearest_float (f : fmt) (n y : Z) : Prop :=
  word (fw f) y /\ isfin f y = true /\ val f y = rnd f (IZR n) /\ fsign (fw f) y = (n <? 0).

Lemma rnd_int_bound f n e : Z.abs n <= 2 ^ e -> 0 <= e < emax f -> (Rabs (rnd f (IZR n)) < bpow radix2 (emax f))%R.
Proof.
  intros Hn He. apply Rle_lt_trans with (bpow radix2 e); [|apply bpow_lt; lia].
  apply rnd_le_bpow; [unfold emin, SpecFloat.emin; destruct f; cbn in *; lia|].
  rewrite <- abs_IZR, <- IZR_Zpower by lia. apply IZR_le. exact Hn.
Qed.
Lemma rnd0 f : rnd f 0 = 0%R. Proof. unfold rnd. apply round_0. typeclasses eauto. Qed.
Lemma rcmp_int n (s : bool) : (n = 0 -> s = false) -> match Rcompare (IZR n) 0 with Eq => s | Lt => true | Gt => false end = (n <? 0).
Proof. intros Hs. rewrite (Rcompare_IZR n 0). destruct (Z.compare_spec n 0); [rewrite Hs by auto| |]; lia. Qed.
Lemma fof_int_ok f n : Z.abs n <= 2 ^ 64 -> nearest_float f n (fof_int f n).
Proof.
  intros Hn. unfold nearest_float, fof_int.
  pose proof (binary_normalize_correct _ _ (Hprec f) (Hprec_emax f) mode_NE n 0 false) as C. rewrite rnd_mode in C.
  assert (E : F2R (Float radix2 n 0) = IZR n) by (unfold F2R; cbn; lra). rewrite E in C.
  rewrite Rlt_bool_true in C by (apply rnd_int_bound with (e := 64); [auto|destruct f; cbn; lia]).
  destruct C as (C1 & C2 & C3). split; [apply enc_word|]. rewrite isfin_enc, val_enc, sign_enc. split; [exact C2|]. split; [exact C1|].
  rewrite C3. apply rcmp_int. auto.
Qed.

Lemma fin64 a : word 64 a -> isfin F64 a = true -> True. Proof. auto. Qed.
Lemma exact_sub nn f a b r : word (fw f) a -> word (fw f) b -> isfin f a = true -> isfin f b = true ->
  (val f a - val f b = r)%R -> generic_format radix2 (SpecFloat.fexp (prec f) (emax f)) r -> (Rabs r < bpow radix2 (emax f))%R ->
  val f (fsub nn f a b) = r /\ isfin f (fsub nn f a b) = true.
Proof.
  intros Ha Hb Fa Fb E G H. pose proof (rnd_id G) as R. destruct (@fsub_fin nn f a b) as (C1 & C2 & _); auto.
  { rewrite E, R. exact H. } rewrite C1, E, R. auto.
Qed.
Lemma sum_int nn f a b n e : word (fw f) a -> word (fw f) b -> isfin f a = true -> isfin f b = true -> fsign (fw f) b = false ->
  (val f a + val f b = IZR n)%R -> Z.abs n <= 2 ^ e -> 0 <= e < emax f -> nearest_float f n (fadd nn f a b).
Proof.
  intros Ha Hb Fa Fb Sb E Hn He. destruct (@fadd_fin nn f a b) as (C1 & C2 & C3); auto.
  { rewrite E. eapply rnd_int_bound; eauto. }
  split; [apply fadd_word|]. split; auto. rewrite C1, E. split; auto. rewrite C3, E. apply rcmp_int. intros _. rewrite Sb. apply andb_false_r.
Qed.
Lemma bp m e : 0 <= e -> (IZR m * bpow radix2 e = IZR (m * 2 ^ e))%R.
Proof. intros. rewrite mult_IZR. change (2 ^ e) with (Zpower radix2 e). rewrite IZR_Zpower by auto. reflexivity. Qed.
Ltac jn := unfold join, sbit; cbn [mw fw eb]; lia.
Lemma u64l_ok nn x : word 64 x -> nearest_float F64 x (u64l nn x).
Proof.
  intros Hx. unfold u64l. unfold word in Hx. pose proof (Z.div_mod x (2 ^ 32) ltac:(lia)) as D.
  pose proof (Z.mod_pos_bound x (2 ^ 32) ltac:(lia)) as Hl. set (h := x / 2 ^ 32) in *. set (l := x mod 2 ^ 32) in *.
  assert (Hh : 0 <= h < 2 ^ 32). { unfold h. split; [apply Z.div_pos; lia|apply Z.div_lt_upper_bound; lia]. }
  clearbody h l. assert (EA : Z.lor h exp84 = join F64 false 0x453 h).
  { change exp84 with (2 ^ mw F64 * 0x453). rewrite (@lor_low F64 h 0x453) by (cbn; lia). jn. }
  assert (EB : l + exp52 = join F64 false 0x433 l) by (unfold exp52; jn).
  assert (EJ : adj84 = join F64 false 0x453 (2 ^ 20)) by reflexivity.
  rewrite EA, EB, EJ. clear EA EB EJ.
  assert (V1 : val F64 (join F64 false 0x453 h) = IZR ((h + 2 ^ 52) * 2 ^ 32)). { rewrite join_val by (cbn; lia). rewrite <- bp by lia. reflexivity. }
  assert (V2 : val F64 (join F64 false 0x433 l) = IZR (l + 2 ^ 52)). { rewrite join_val by (cbn; lia). cbn [sgnr]. change (bpow radix2 _) with 1%R. apply Rmult_1_r. }
  assert (V3 : val F64 (join F64 false 0x453 (2 ^ 20)) = IZR ((2 ^ 20 + 2 ^ 52) * 2 ^ 32)). { rewrite join_val by (cbn; lia). rewrite <- bp by lia. reflexivity. }
  destruct (@exact_sub nn F64 (join F64 false 0x453 h) (join F64 false 0x453 (2 ^ 20)) (IZR (h - 2 ^ 20) * bpow radix2 32)) as [S1 S2];
    try (apply join_word; cbn; lia); try (apply join_fin; cbn; lia).
  { rewrite V1, V3, <- minus_IZR, bp by lia. f_equal. lia. }
  { apply (@fmt_F2R F64); [cbn [prec mw]; unfold prec; cbn; lia|cbn; lia]. }
  { rewrite bp by lia. rewrite <- abs_IZR. apply Rlt_le_trans with (bpow radix2 100); [|apply bpow_le; cbn; lia].
    rewrite <- IZR_Zpower by lia. apply IZR_lt. change (Zpower radix2 100) with (2 ^ 100). lia. }
  apply sum_int with (e := 64); auto; try apply fsub_word; try (apply join_word; cbn; lia); try (apply join_fin; cbn; lia).
  - apply join_sign; cbn; lia.
  - rewrite S1, V2, bp, <- plus_IZR by lia. f_equal. lia.
  - lia.
  - cbn; lia.
Qed.
Lemma sgn_hi x : word 64 x -> sgn 32 (x / 2 ^ 32) / 2 ^ 16 = sgn 64 x / 2 ^ 48 /\ sgn 64 x = 2 ^ 48 * (sgn 64 x / 2 ^ 48) + x mod 2 ^ 48 /\ - 2 ^ 15 <= sgn 64 x / 2 ^ 48 < 2 ^ 15.
Proof.
  intros Hx. unfold word in Hx. assert (S1 : sgn 32 (x / 2 ^ 32) = sgn 64 x / 2 ^ 32).
  { unfold sgn. change (32 - 1) with 31. change (64 - 1) with 63. assert (x / 2 ^ 32 < 2 ^ 31 <-> x < 2 ^ 63).
    { split; intros H. - apply Z.nle_gt. intros H'. assert (2 ^ 31 <= x / 2 ^ 32); [apply Z.div_le_lower_bound; lia|lia].
      - apply Z.div_lt_upper_bound; lia. }
    destruct (Z.ltb_spec x (2 ^ 63)) as [L|L]; destruct (Z.ltb_spec (x / 2 ^ 32) (2 ^ 31)) as [L'|L']; try (exfalso; lia).
    - reflexivity.
    - replace (x - 2 ^ 64) with (x + (- 2 ^ 32) * 2 ^ 32) by lia. rewrite Z.div_add by lia. lia. }
  pose proof (@sgn_range 64 x ltac:(lia) Hx) as R. cbn in R. change (64 - 1) with 63 in R. split; [|split].
  - rewrite S1, Zdiv.Zdiv_Zdiv by lia. reflexivity.
  - assert (M : sgn 64 x mod 2 ^ 48 = x mod 2 ^ 48).
    { unfold sgn. destruct (x <? _); auto. replace (x - 2 ^ 64) with (x + (- 2 ^ 16) * 2 ^ 48) by lia. apply Z.mod_add. lia. }
    rewrite <- M. apply Z.div_mod. lia.
  - split; [apply Z.div_le_lower_bound; lia|apply Z.div_lt_upper_bound; lia].
Qed.
Lemma i64l_ok nn x : word 64 x -> nearest_float F64 (sgn 64 x) (i64l nn x).
Proof.
  intros Hx. unfold i64l. destruct (sgn_hi Hx) as (E1 & E2 & E3). rewrite E1.
  pose proof (@sgn_range 64 x ltac:(lia) Hx) as R. change (64 - 1) with 63 in R.
  pose proof (Z.mod_pos_bound x (2 ^ 48) ltac:(lia)) as Hl. set (h := sgn 64 x / 2 ^ 48) in *. set (l := x mod 2 ^ 48) in *.
  set (n := sgn 64 x) in *. clearbody h l n. clear E1 Hx.
  assert (EA : wrap 64 (2 ^ 32 * wrap 32 h + exp67m3) = join F64 false 0x443 (2 ^ 51 + h * 2 ^ 32)).
  { unfold wrap. assert (M : 2 ^ 32 * (h mod 2 ^ 32) = 2 ^ 32 * h + (- (h / 2 ^ 32)) * 2 ^ 64).
    { pose proof (Z.div_mod h (2 ^ 32) ltac:(lia)). lia. } rewrite M.
    replace (2 ^ 32 * h + - (h / 2 ^ 32) * 2 ^ 64 + exp67m3) with (2 ^ 32 * h + exp67m3 + - (h / 2 ^ 32) * 2 ^ 64) by ring.
    rewrite Z.mod_add by lia. rewrite Z.mod_small; unfold exp67m3; [jn|lia]. }
  assert (EB : l + exp52 = join F64 false 0x433 l) by (unfold exp52; jn).
  assert (EJ : adj67 = join F64 false 0x443 (2 ^ 51 + 2 ^ 36)) by reflexivity.
  rewrite EA, EB, EJ. clear EA EB EJ.
  assert (V1 : val F64 (join F64 false 0x443 (2 ^ 51 + h * 2 ^ 32)) = IZR ((2 ^ 51 + h * 2 ^ 32 + 2 ^ 52) * 2 ^ 16)).
  { rewrite join_val by (cbn [mw eb]; lia). rewrite <- bp by lia. reflexivity. }
  assert (V2 : val F64 (join F64 false 0x433 l) = IZR (l + 2 ^ 52)). { rewrite join_val by (cbn; lia). cbn [sgnr]. change (bpow radix2 _) with 1%R. apply Rmult_1_r. }
  assert (V3 : val F64 (join F64 false 0x443 (2 ^ 51 + 2 ^ 36)) = IZR ((2 ^ 51 + 2 ^ 36 + 2 ^ 52) * 2 ^ 16)). { rewrite join_val by (cbn; lia). rewrite <- bp by lia. reflexivity. }
  destruct (@exact_sub nn F64 (join F64 false 0x443 (2 ^ 51 + h * 2 ^ 32)) (join F64 false 0x443 (2 ^ 51 + 2 ^ 36)) (IZR (h * 2 ^ 32 - 2 ^ 36) * bpow radix2 16)) as [S1 S2];
    try (apply join_word; cbn [mw eb]; lia); try (apply join_fin; cbn [mw eb]; lia).
  { rewrite V1, V3, <- minus_IZR, bp by lia. f_equal. lia. }
  { apply (@fmt_F2R F64); [unfold prec; cbn [mw]; lia|cbn; lia]. }
  { rewrite bp by lia. rewrite <- abs_IZR. apply Rlt_le_trans with (bpow radix2 100); [|apply bpow_le; cbn; lia].
    rewrite <- IZR_Zpower by lia. apply IZR_lt. change (Zpower radix2 100) with (2 ^ 100). lia. }
  apply sum_int with (e := 64); auto; try apply fsub_word; try (apply join_word; cbn [mw eb]; lia); try (apply join_fin; cbn [mw eb]; lia).
  - apply join_sign; cbn; lia.
  - rewrite S1, V2, bp, <- plus_IZR by lia. f_equal. lia.
  - lia.
  - cbn; lia.
Qed.

(** *** Floating point to integers *)
Lemma Zfloor_add r k : Zfloor (r + IZR k) = Zfloor r + k.
Proof. apply Zfloor_imp. pose proof (Zfloor_lb r). pose proof (Zfloor_ub r). rewrite !plus_IZR. lra. Qed.
Lemma Zceil_add r k : Zceil (r + IZR k) = Zceil r + k.
Proof. unfold Zceil. replace (- (r + IZR k))%R with (- r + IZR (- k))%R by (rewrite opp_IZR; ring). rewrite Zfloor_add. lia. Qed.
Lemma near_even r k : ZnearestE (r + IZR (2 * k)) = ZnearestE r + 2 * k.
Proof.
  unfold Znearest. rewrite Zfloor_add, Zceil_add, plus_IZR.
  replace (r + IZR (2 * k) - (IZR (Zfloor r) + IZR (2 * k)))%R with (r - IZR (Zfloor r))%R by ring.
  rewrite Z.even_add_mul_2. destruct (Rcompare _ _); auto. destruct (Z.even (Zfloor r)); reflexivity.
Qed.
Lemma near_le r n : (r <= IZR n)%R -> ZnearestE r <= n.
Proof. intros H. rewrite <- (Znearest_imp (fun x => negb (Z.even x)) (IZR n) n) by (rewrite Rminus_diag_eq, Rabs_R0; [lra|auto]). apply Zrnd_le; auto. typeclasses eauto. Qed.
Lemma near_ge r n : (IZR n <= r)%R -> n <= ZnearestE r.
Proof. intros H. rewrite <- (Znearest_imp (fun x => negb (Z.even x)) (IZR n) n) by (rewrite Rminus_diag_eq, Rabs_R0; [lra|auto]). apply Zrnd_le; auto. typeclasses eauto. Qed.
Lemma near_lt r n : (r < IZR n - / 2)%R -> ZnearestE r < n.
Proof.
  intros H. destruct (Z.lt_ge_cases (ZnearestE r) n) as [L|L]; auto. exfalso.
  pose proof (Znearest_half (fun x => negb (Z.even x)) r) as N. apply IZR_le in L. apply Rabs_le_inv in N. lra.
Qed.

Section FI.
Context {f : fmt}.
Notation M := (mw f).
Notation fexp := (SpecFloat.fexp (prec f) (emax f)).
Lemma rnd_at r k : emin f <= k -> (bpow radix2 (M + k) <= r <= bpow radix2 (M + 1 + k))%R ->
  rnd f r = (IZR (ZnearestE (r * bpow radix2 (- k))) * bpow radix2 k)%R.
Proof.
  intros Hk [H1 H2]. pose proof (bpow_gt_0 radix2 (M + k)) as P. pose proof (@mw_pos f) as MP. destruct H2 as [H2 | ->].
  - unfold rnd, round, scaled_mantissa, F2R, cexp. cbn [Fnum Fexp].
    replace (mag radix2 r : Z) with (M + 1 + k); [|symmetry; apply mag_unique_pos; split; [|lra]; replace (M + 1 + k - 1) with (M + k) by lia; lra].
    replace (fexp (M + 1 + k)) with k; [reflexivity|]. unfold SpecFloat.fexp, SpecFloat.emin. unfold emin in Hk. unfold prec in *. lia.
  - rewrite rnd_id.
    + rewrite <- bpow_plus. replace (M + 1 + k + - k) with (M + 1) by lia. rewrite <- (IZR_Zpower radix2 (M + 1)) by lia.
      rewrite (Znearest_imp _ _ (Zpower radix2 (M + 1))) by (rewrite Rminus_diag_eq, Rabs_R0; [lra|auto]).
      rewrite IZR_Zpower by lia. rewrite <- bpow_plus. reflexivity.
    + apply generic_format_bpow. unfold SpecFloat.fexp, SpecFloat.emin. unfold emin in Hk. pose proof (Hprec f). unfold Prec_gt_0 in *. lia.
Qed.
(** the bit pattern of an integer multiple of 2^k with a full significand *)
Lemma bits_at y N k : word (fw f) y -> isfin f y = true -> 2 ^ M <= N <= 2 ^ (M + 1) -> 1 <= k + 1 - emin f < 2 ^ eb f - 2 ->
  val f y = (IZR N * bpow radix2 k)%R -> y = 2 ^ M * (k + 1 - emin f) + (N - 2 ^ M).
Proof.
  intros Hy Fy HN Hk HV. pose proof (@mw_pos f) as MP. pose proof (@mm_pos f) as MM. pose proof (bpow_gt_0 radix2 k) as P.
  assert (D : exists e m, 1 <= e < 2 ^ eb f - 1 /\ 0 <= m < 2 ^ M /\ 2 ^ M * (k + 1 - emin f) + (N - 2 ^ M) = join f false e m /\
    val f (join f false e m) = (IZR N * bpow radix2 k)%R).
  { destruct (Z.eq_dec N (2 ^ (M + 1))) as [-> | NE].
    - exists (k + 2 - emin f), 0. split; [lia|]. split; [lia|]. rewrite Z.pow_add_r by lia. split.
      + unfold join, sbit. change (2 ^ 1) with 2. lia.
      + rewrite join_val by lia. cbn [sgnr]. replace (k + 2 - emin f + emin f - 1) with (1 + k) by lia. rewrite bpow_plus. change (bpow radix2 1) with 2%R.
        rewrite mult_IZR. change (IZR (2 ^ 1)) with 2%R. change (0 + 2 ^ M) with (2 ^ M). ring.
    - assert (HN' : N < 2 * 2 ^ M) by (rewrite Z.pow_add_r in * by lia; lia). exists (k + 1 - emin f), (N - 2 ^ M). split; [lia|]. split; [lia|]. split.
      + unfold join, sbit. lia.
      + rewrite join_val by lia. cbn [sgnr]. replace (k + 1 - emin f + emin f - 1) with k by lia. replace (N - 2 ^ M + 2 ^ M) with N by lia. reflexivity. }
  destruct D as (e & m & He & Hm & -> & HJ).
  assert (PN : (0 < val f y)%R). { rewrite HV. apply Rmult_lt_0_compat; auto. apply IZR_lt. lia. }
  apply (@bits_inj f); auto.
  - apply join_word; lia.
  - apply join_fin; lia.
  - congruence.
  - rewrite join_sign by lia. pose proof (val_mag Hy Fy) as VM. pose proof (@mval_nonneg f (fmag (fw f) y)). destruct (fsign (fw f) y); auto. lra.
Qed.
Lemma lxor_low e m : 0 <= m < 2 ^ M -> Z.lxor (2 ^ M * e + m) (2 ^ M * e) = m.
Proof.
  intros Hm. rewrite Z.add_comm, <- (@lor_low f m e) by auto. apply Z.bits_inj'. intros i Hi. pose proof (@mw_pos f).
  rewrite Z.lxor_spec, Z.lor_spec, Z.mul_comm. destruct (Z.lt_ge_cases i M).
  - rewrite Z.mul_pow2_bits_low by lia. destruct (Z.testbit m i); reflexivity.
  - rewrite <- (Z.mod_small m (2 ^ M)) by lia. rewrite Z.mod_pow2_bits_high by lia. destruct (Z.testbit (e * 2 ^ M) i); reflexivity.
Qed.
(** adding the constant c * 2^k whose significand is full rounds to a multiple of 2^k *)
Lemma add_magic nn x k c : word (fw f) x -> isfin f x = true -> emin f <= k -> 1 <= k + 1 - emin f < 2 ^ eb f - 2 -> 2 ^ M <= 2 * c < 2 ^ (M + 1) ->
  (IZR (2 ^ M - 2 * c) <= val f x * bpow radix2 (- k) <= IZR (2 ^ (M + 1) - 2 * c))%R ->
  fadd nn f x (2 ^ M * (k + 1 - emin f) + (2 * c - 2 ^ M)) = 2 ^ M * (k + 1 - emin f) + (2 * c - 2 ^ M) + ZnearestE (val f x * bpow radix2 (- k)).
Proof.
  intros Hx Fx Hk He Hc Hr. pose proof (@mw_pos f) as MP. pose proof (@mm_pos f) as MM. assert (Hc' : 0 <= 2 * c - 2 ^ M < 2 ^ M) by (rewrite Z.pow_add_r in Hc by lia; lia).
  set (C := 2 ^ M * (k + 1 - emin f) + (2 * c - 2 ^ M)).
  assert (EC : C = join f false (k + 1 - emin f) (2 * c - 2 ^ M)) by (unfold C, join, sbit; lia).
  assert (VC : val f C = (IZR (2 * c) * bpow radix2 k)%R).
  { rewrite EC, join_val by lia. cbn [sgnr]. f_equal; [f_equal; lia|f_equal; lia]. }
  assert (WC : word (fw f) C) by (rewrite EC; apply join_word; lia). assert (FC : isfin f C = true) by (rewrite EC; apply join_fin; lia).
  set (r := (val f x * bpow radix2 (- k))%R) in *.
  assert (VX : val f x = (r * bpow radix2 k)%R). { unfold r. rewrite Rmult_assoc, <- bpow_plus. replace (- k + k) with 0 by lia. cbn. ring. }
  assert (VS : (val f x + val f C = (r + IZR (2 * c)) * bpow radix2 k)%R) by (rewrite VX, VC; ring).
  pose proof (bpow_gt_0 radix2 k) as PK.
  assert (HS : (bpow radix2 (M + k) <= (r + IZR (2 * c)) * bpow radix2 k <= bpow radix2 (M + 1 + k))%R).
  { rewrite !(bpow_plus radix2 _ k), <- (IZR_Zpower radix2 M), <- (IZR_Zpower radix2 (M + 1)) by lia. change (Zpower radix2 M) with (2 ^ M). change (Zpower radix2 (M + 1)) with (2 ^ (M + 1)).
    rewrite !minus_IZR in Hr. split; apply Rmult_le_compat_r; lra. }
  pose proof (rnd_at Hk HS) as RA.
  replace ((r + IZR (2 * c)) * bpow radix2 k * bpow radix2 (- k))%R with (r + IZR (2 * c))%R in RA
    by (rewrite Rmult_assoc, <- bpow_plus; replace (k + - k) with 0 by lia; cbn; ring).
  rewrite near_even in RA. pose proof (near_ge _ (proj1 Hr)) as N1. pose proof (near_le _ (proj2 Hr)) as N2.
  destruct (@fadd_fin nn f x C) as (C1 & C2 & _); auto.
  { rewrite VS. assert (HA : (Rabs (rnd f ((r + IZR (2 * c)) * bpow radix2 k)) <= bpow radix2 (M + 1 + k))%R).
    { apply rnd_le_bpow; [lia|]. rewrite Rabs_pos_eq; [lra|]. pose proof (bpow_gt_0 radix2 (M + k)). lra. }
    eapply Rle_lt_trans; [exact HA|]. apply bpow_lt. clear -Hk He. destruct f;
      [change (emin F32) with (-149) in *; change (emax F32) with 128; change (2 ^ eb F32) with 256 in *; change (mw F32) with 23
      |change (emin F64) with (-1074) in *; change (emax F64) with 1024; change (2 ^ eb F64) with 2048 in *; change (mw F64) with 52]; lia. }
  rewrite VS, RA in C1. rewrite (@bits_at _ (ZnearestE r + 2 * c) k); auto; try apply fadd_word; lia.
Qed.
End FI.

(** double -> int64 *)
Lemma f64_i64l_ok nn x : word 64 x -> isfin F64 x = true -> (- IZR (2 ^ 51) <= val F64 x <= IZR (2 ^ 51))%R ->
  f64_i64l nn x = wrap 64 (ZnearestE (val F64 x)).
Proof.
  intros Hx Fx Hr. unfold f64_i64l.
  pose proof (@add_magic F64 nn x 0 (3 * 2 ^ 50) Hx Fx ltac:(cbn; lia) ltac:(cbn; lia) ltac:(cbn; lia)) as A.
  replace (val F64 x * bpow radix2 (- 0))%R with (val F64 x) in A by (cbn; ring).
  change (2 ^ mw F64 * (0 + 1 - emin F64) + (2 * (3 * 2 ^ 50) - 2 ^ mw F64)) with exp51m3 in A.
  rewrite A; [f_equal; lia|]. cbn in Hr |- *. lra.
Qed.
(** double -> uint64 *)
Lemma f64_u64l_ok nn x : word 64 x -> isfin F64 x = true -> (0 <= val F64 x < IZR (2 ^ 52) - / 2)%R ->
  f64_u64l nn x = ZnearestE (val F64 x).
Proof.
  intros Hx Fx Hr. unfold f64_u64l.
  pose proof (@add_magic F64 nn x 0 (2 ^ 51) Hx Fx ltac:(cbn; lia) ltac:(cbn; lia) ltac:(cbn; lia)) as A.
  replace (val F64 x * bpow radix2 (- 0))%R with (val F64 x) in A by (cbn; ring).
  change (2 ^ mw F64 * (0 + 1 - emin F64) + (2 * 2 ^ 51 - 2 ^ mw F64)) with exp52 in A.
  rewrite A by (cbn in Hr |- *; lra). change exp52 with (2 ^ mw F64 * 0x433). apply lxor_low.
  split; [apply near_ge; lra|apply near_lt; cbn [mw]; lra].
Qed.
(** float -> uint32: the offset 2^22 leaves one fractional bit, so the result is the nearest integer to 2x *)
Lemma f32_u32l_twice nn x : word 32 x -> isfin F32 x = true -> (0 <= val F32 x < IZR (2 ^ 22) - / 4)%R ->
  f32_u32l nn x = ZnearestE (2 * val F32 x).
Proof.
  intros Hx Fx Hr. unfold f32_u32l.
  pose proof (@add_magic F32 nn x (-1) (2 ^ 22) Hx Fx ltac:(cbn; lia) ltac:(cbn; lia) ltac:(cbn; lia)) as A.
  replace (val F32 x * bpow radix2 (- -1))%R with (2 * val F32 x)%R in A by (cbn; ring).
  change (2 ^ mw F32 * (-1 + 1 - emin F32) + (2 * 2 ^ 22 - 2 ^ mw F32)) with 0x4a800000 in A.
  rewrite A by (cbn in Hr |- *; lra). change 0x4a800000 with (2 ^ mw F32 * 149). apply lxor_low.
  split; [apply near_ge; lra|apply near_lt; cbn in Hr |- *; lra].
Qed.
(** cvtps / cvttps and friends *)
Lemma fto_int_ok nn f md w x : 0 < w -> word (fw f) x -> isfin f x = true -> - 2 ^ (w - 1) <= round_mode md (val f x) < 2 ^ (w - 1) ->
  fto_int nn f md w x = wrap w (round_mode md (val f x)).
Proof.
  intros Hw Hx Fx Hr. unfold fto_int. rewrite Fx. cbn [andb].
  assert (E : Btrunc _ _ (Bnearbyint _ _ (Hprec_emax f) (n1 nn f) md (dec f x)) = round_mode md (val f x)).
  { apply eq_IZR. rewrite Btrunc_correct by apply Hprec_emax.
    destruct (@fround_fin nn f md x Hx Fx) as (C1 & _). unfold fround in C1. rewrite val_enc in C1. rewrite C1.
    unfold round, scaled_mantissa, cexp, FIX_exp, F2R. cbn [Fnum Fexp bpow Z.opp]. rewrite !Rmult_1_r, Ztrunc_IZR. reflexivity. }
  rewrite E. replace (_ && _) with true by lia. reflexivity.
Qed.

(** uint32 -> float *)
Lemma land1 x : Z.land x 1 = x mod 2. Proof. change 1 with (Z.ones 1). rewrite Z.land_ones by lia. reflexivity. Qed.
Lemma rnd_int_exact f n : Z.abs n <= 2 ^ prec f -> rnd f (IZR n) = IZR n.
Proof.
  intros H. apply rnd_id. destruct (Z.eq_dec (Z.abs n) (2 ^ prec f)) as [E|E].
  - pose proof (@mw_pos f). assert (generic_format radix2 (SpecFloat.fexp (prec f) (emax f)) (bpow radix2 (prec f))).
    { apply generic_format_bpow. unfold SpecFloat.fexp, SpecFloat.emin, prec, emax. destruct f; cbn; lia. }
    assert (D : n = 2 ^ prec f \/ n = - 2 ^ prec f) by lia. change (2 ^ prec f) with (Zpower radix2 (prec f)) in D.
    destruct D as [-> | ->]; rewrite ?opp_IZR, IZR_Zpower by (unfold prec; lia); [|apply generic_format_opp]; auto.
  - replace (IZR n) with (IZR n * bpow radix2 0)%R by (cbn; ring). apply fmt_F2R; [lia|destruct f; cbn; lia].
Qed.
Lemma rnd_plus_one y : generic_format radix2 (SpecFloat.fexp (prec F32) (emax F32)) y -> (bpow radix2 25 <= y)%R -> rnd F32 (y + 1) = y.
Proof.
  intros G Hy. set (q := cexp radix2 (SpecFloat.fexp (prec F32) (emax F32)) y). set (m := Ztrunc (scaled_mantissa radix2 (SpecFloat.fexp (prec F32) (emax F32)) y)).
  assert (E : y = (IZR m * bpow radix2 q)%R) by exact G. pose proof (bpow_gt_0 radix2 25) as P25.
  assert (Hmag : 26 <= mag radix2 y). { apply mag_ge_bpow. rewrite Rabs_pos_eq by lra. exact Hy. }
  pose proof (bpow_mag_gt radix2 y) as He2. pose proof (bpow_mag_le radix2 y ltac:(lra)) as He1. rewrite Rabs_pos_eq in He1, He2 by lra.
  assert (Hq : q = mag radix2 y - 24). { unfold q, cexp. unfold SpecFloat.fexp, SpecFloat.emin. change (prec F32) with 24. change (emax F32) with 128. lia. }
  set (e := (mag radix2 y : Z)) in *.
  clearbody m q e. pose proof (bpow_gt_0 radix2 q) as Pq.
  assert (Hm : m + 1 <= 2 ^ 24).
  { assert (IZR m < IZR (2 ^ 24))%R; [|apply lt_IZR in H; lia]. apply Rmult_lt_reg_r with (bpow radix2 q); auto. rewrite <- E.
    change (IZR (2 ^ 24)) with (bpow radix2 24). rewrite <- bpow_plus. replace (24 + q) with e by lia. exact He2. }
  assert (H4 : (4 <= bpow radix2 q)%R). { change 4%R with (bpow radix2 2). apply bpow_le. lia. }
  assert (HY : (y + bpow radix2 q <= bpow radix2 e)%R).
  { replace e with (24 + q) by lia. rewrite bpow_plus. change (bpow radix2 24) with (IZR (2 ^ 24)). rewrite E. apply IZR_le in Hm. rewrite plus_IZR in Hm. nra. }
  unfold rnd, round, scaled_mantissa, F2R, cexp. cbn [Fnum Fexp].
  replace (mag radix2 (y + 1) : Z) with e; [|symmetry; apply mag_unique_pos; split; lra].
  replace (SpecFloat.fexp (prec F32) (emax F32) e) with q by (unfold SpecFloat.fexp, SpecFloat.emin; change (prec F32) with 24; change (emax F32) with 128; lia).
  rewrite (Znearest_imp _ _ m); [symmetry; exact E|].
  assert (Q : (y * bpow radix2 (- q) = IZR m)%R). { rewrite E at 1. rewrite Rmult_assoc, <- bpow_plus. replace (q + - q) with 0 by lia. cbn. ring. }
  rewrite Rmult_plus_distr_r, Q. replace (IZR m + 1 * bpow radix2 (- q) - IZR m)%R with (bpow radix2 (- q)) by ring.
  rewrite Rabs_pos_eq by apply bpow_ge_0. apply Rle_lt_trans with (bpow radix2 (- 2)); [apply bpow_le; lia|cbn; lra].
Qed.
(** up to 2^25 the conversion is correctly rounded; above, it is the correct rounding of x with its lowest bit cleared *)
Lemma u32l_ok nn x : word 32 x -> nearest_float F32 (if x <? 2 ^ 25 then x else x - x mod 2) (u32l nn x).
Proof.
  intros Hx. unfold word in Hx. unfold u32l. change (2 ^ 1) with 2. rewrite land1. pose proof (Z.div_mod x 2 ltac:(lia)) as D. pose proof (Z.mod_pos_bound x 2 ltac:(lia)) as Hm.
  assert (Hd : 0 <= x / 2 < 2 ^ 31) by (split; [apply Z.div_pos; lia|apply Z.div_lt_upper_bound; lia]).
  set (b := x / 2) in *. set (a := x mod 2) in *.
  assert (Sb : sgn 32 b = b). { unfold sgn. change (32 - 1) with 31. replace (b <? 2 ^ 31) with true by lia. reflexivity. }
  assert (Sa : sgn 32 a = a). { unfold sgn. change (32 - 1) with 31. replace (a <? 2 ^ 31) with true by lia. reflexivity. }
  rewrite Sb, Sa. clearbody a b. clear Sa Sb.
  destruct (@fof_int_ok F32 b ltac:(lia)) as (Wb & Fb & Vb & Sb). destruct (@fof_int_ok F32 a ltac:(lia)) as (Wa & Fa & Va & Sa).
  set (B := fof_int F32 b) in *. set (A := fof_int F32 a) in *. clearbody A B.
  rewrite (@rnd_int_exact F32 a) in Va by (cbn; lia).
  (* doubling is exact *)
  assert (DB : (rnd F32 (IZR b) + rnd F32 (IZR b) = rnd F32 (IZR (2 * b)))%R).
  { rewrite mult_IZR. destruct (Z.eq_dec b 0) as [-> | NZ]; [rewrite Rmult_0_r, rnd0; ring|].
    assert (P : (1 <= IZR b)%R) by (apply IZR_le; lia).
    unfold rnd, round, scaled_mantissa, F2R, cexp. cbn [Fnum Fexp].
    assert (MG : (mag radix2 (2 * IZR b) : Z) = mag radix2 (IZR b) + 1).
    { rewrite Rmult_comm. change 2%R with (bpow radix2 1). apply mag_mult_bpow. lra. } rewrite MG.
    assert (Q : (1 <= mag radix2 (IZR b))%Z). { apply mag_ge_bpow. rewrite Rabs_pos_eq by lra. exact P. }
    set (e := (mag radix2 (IZR b) : Z)) in *. clearbody e.
    assert (E1 : SpecFloat.fexp (prec F32) (emax F32) (e + 1) = SpecFloat.fexp (prec F32) (emax F32) e + 1).
    { unfold SpecFloat.fexp, SpecFloat.emin. cbn. lia. }
    rewrite E1. set (q := SpecFloat.fexp _ _ e). replace (- (q + 1)) with (-1 + - q) by lia. rewrite !bpow_plus. change (bpow radix2 (-1)) with (/ 2)%R. change (bpow radix2 1) with 2%R.
    replace (2 * IZR b * (/ 2 * bpow radix2 (- q)))%R with (IZR b * bpow radix2 (- q))%R by field. ring. }
  destruct (@fadd_fin nn F32 B B) as (C1 & C2 & C3); auto.
  { rewrite Vb, DB. rewrite (rnd_id (f := F32)) by (unfold rnd; apply generic_format_round; typeclasses eauto).
    apply rnd_int_bound with (e := 32); [lia|cbn; lia]. }
  rewrite Vb, DB in C1. rewrite (rnd_id (f := F32)) in C1 by (unfold rnd; apply generic_format_round; typeclasses eauto).
  set (BB := fadd nn F32 B B) in *. assert (WB : word (fw F32) BB) by apply fadd_word. clearbody BB.
  destruct (Z.ltb_spec x (2 ^ 25)) as [L|L].
  - apply sum_int with (e := 32); auto.
    + rewrite Sa. lia.
    + rewrite C1, Va, <- DB, (@rnd_int_exact F32 b) by (change (2 ^ prec F32) with (2 ^ 24); lia). rewrite <- !plus_IZR. f_equal. lia.
    + lia.
    + cbn; lia.
  - replace (x - a) with (2 * b) by lia.
    assert (R2 : rnd F32 (rnd F32 (IZR (2 * b)) + IZR a) = rnd F32 (IZR (2 * b))).
    { assert (a = 0 \/ a = 1) as [-> | ->] by lia.
      - rewrite Rplus_0_r. apply rnd_id. unfold rnd. apply generic_format_round; typeclasses eauto.
      - apply rnd_plus_one; [unfold rnd; apply generic_format_round; typeclasses eauto|].
        apply (@round_ge_generic radix2 _ _ ZnearestE _); [apply generic_format_bpow; cbn; lia|].
        rewrite <- IZR_Zpower by lia. apply IZR_le. change (Zpower radix2 25) with (2 ^ 25). change (2 ^ 25) with (2 * 2 ^ 24) in *. lia. }
    destruct (@fadd_fin nn F32 BB A) as (D1 & D2 & D3); auto.
    { rewrite C1, Va, R2. apply rnd_int_bound with (e := 32); [lia|cbn; lia]. }
    split; [apply fadd_word|]. split; auto. split; [rewrite D1, C1, Va; auto|].
    rewrite D3, C1, Va. clear -D L Hd Hm. rewrite Rcompare_Gt; [lia|].
    assert (H : (bpow radix2 24 <= rnd F32 (IZR (2 * b)))%R).
    { apply (@round_ge_generic radix2 _ _ ZnearestE _); [apply generic_format_bpow; reflexivity || (cbn; clear; lia)|].
      rewrite <- IZR_Zpower by (clear; lia). apply IZR_le. change (Zpower radix2 24) with (2 ^ 24). lia. }
    pose proof (bpow_gt_0 radix2 24). assert (0 <= IZR a)%R by (apply IZR_le; lia). lra.
Qed.

(** int64 -> double as compiled with SSE4.1: bits 16..31 are shifted in with their sign instead of bits 48..63 *)
Lemma i64l_sse4_val nn x : word 64 x ->
  nearest_float F64 (x mod 2 ^ 48 + 2 ^ 16 * wrap 32 (sgn 32 (x mod 2 ^ 32) / 2 ^ 16)) (i64l_sse4 nn x).
Proof.
  intros Hx. unfold i64l_sse4. pose proof (srai_word (sgn 32 (x mod 2 ^ 32) / 2 ^ 16)) as Hh.
  pose proof (Z.mod_pos_bound x (2 ^ 48) ltac:(lia)) as Hl. set (h := wrap 32 _) in *. set (l := x mod 2 ^ 48) in *.
  clearbody h l. clear Hx.
  assert (EA : wrap 64 (h + exp67m3) = join F64 false 0x443 (2 ^ 51 + h)).
  { unfold wrap. rewrite Z.mod_small; unfold exp67m3; [jn|lia]. }
  assert (EB : l + exp52 = join F64 false 0x433 l) by (unfold exp52; jn).
  assert (EJ : adj67 = join F64 false 0x443 (2 ^ 51 + 2 ^ 36)) by reflexivity.
  rewrite EA, EB, EJ. clear EA EB EJ.
  assert (V1 : val F64 (join F64 false 0x443 (2 ^ 51 + h)) = IZR ((2 ^ 51 + h + 2 ^ 52) * 2 ^ 16)).
  { rewrite join_val by (cbn [mw eb]; lia). rewrite <- bp by lia. reflexivity. }
  assert (V2 : val F64 (join F64 false 0x433 l) = IZR (l + 2 ^ 52)). { rewrite join_val by (cbn; lia). cbn [sgnr]. change (bpow radix2 _) with 1%R. apply Rmult_1_r. }
  assert (V3 : val F64 (join F64 false 0x443 (2 ^ 51 + 2 ^ 36)) = IZR ((2 ^ 51 + 2 ^ 36 + 2 ^ 52) * 2 ^ 16)). { rewrite join_val by (cbn; lia). rewrite <- bp by lia. reflexivity. }
  destruct (@exact_sub nn F64 (join F64 false 0x443 (2 ^ 51 + h)) (join F64 false 0x443 (2 ^ 51 + 2 ^ 36)) (IZR (h - 2 ^ 36) * bpow radix2 16)) as [S1 S2];
    try (apply join_word; cbn [mw eb]; lia); try (apply join_fin; cbn [mw eb]; lia).
  { rewrite V1, V3, <- minus_IZR, bp by lia. f_equal. lia. }
  { apply (@fmt_F2R F64); [unfold prec; cbn [mw]; lia|cbn; lia]. }
  { rewrite bp by lia. rewrite <- abs_IZR. apply Rlt_le_trans with (bpow radix2 100); [|apply bpow_le; cbn; lia].
    rewrite <- IZR_Zpower by lia. apply IZR_lt. change (Zpower radix2 100) with (2 ^ 100). lia. }
  apply sum_int with (e := 64); auto; try apply fsub_word; try (apply join_word; cbn [mw eb]; lia); try (apply join_fin; cbn [mw eb]; lia).
  - apply join_sign; cbn; lia.
  - rewrite S1, V2, bp, <- plus_IZR by lia. f_equal. lia.
  - lia.
  - cbn; lia.
Qed.
Lemma fto_int_word nn f md w x : 0 < w -> word w (fto_int nn f md w x).
Proof.
  intros Hw. unfold fto_int. destruct (_ && _).
  - apply wrap_word. lia.
  - unfold word. pose proof (pow2_pred w Hw). pose proof (pow2_pos (w - 1) ltac:(lia)). lia.
Qed.
Lemma f64_u64l_word nn x : word 64 (f64_u64l nn x).
Proof. unfold f64_u64l. apply word_lxor; [lia|apply (@fadd_word nn F64)|split; [discriminate|reflexivity]]. Qed.
Lemma f32_u32l_word nn x : word 32 (f32_u32l nn x).
Proof. unfold f32_u32l. apply word_lxor; [lia|apply (@fadd_word nn F32)|split; [discriminate|reflexivity]]. Qed.

(** *** Copies *)
Local Open Scope nat_scope.
Section Copy.
Context {X : xty} (HX : xty_ok X).
Let w := xw X.
Lemma copy_from_cvt_ok (K : vec -> vec) (k : Z -> Z) conv mem p d :
  (forall v, wfv X v -> K v = map k v) -> (forall x, word w x -> word w (k x)) ->
  words w mem -> p + dsz X * ext X <= length mem -> shaped X d ->
  exists d', x_copy_from_cvt X K conv mem p d = Ok d' /\ shaped X d' /\
    forall i, i < xN X -> exists x, get mem (p + i) = Ok x /\ word w x /\ get (elems X d') i = Ok (k x).
Proof.
  intros HK Hk Hm HM Hd. pose proof (N_le_M HX) as NM.
  assert (Wm : words w (map k mem)). { apply Forall_forall. intros y Hy. apply in_map_iff in Hy. destruct Hy as (x & <- & Hx). apply Hk. eapply words_In; eauto. }
  destruct (copy_from_vec HX p Hd Wm) as (d' & E & Sh & C); [rewrite map_length; auto|].
  exists d'. split; [|split; auto].
  - unfold x_copy_from_cvt. unfold x_copy_from in E.
    assert (T : for_up 0 (dsz X) (fun j d => v <- load_vec X mem (p + j * ext X);; set d j (K v)) d =
                for_up 0 (dsz X) (fun j d => v <- load_vec X (map k mem) (p + j * ext X);; set d j v) d).
    { apply for_up_ext. intros j t Hj. pose proof (@dsz_mul X j ltac:(lia)) as HJ. pose proof (e_pos HX).
      rewrite !load_vec_ok by (try rewrite map_length; lia). cbn [bind].
      rewrite skipn_map, firstn_map, HK; auto. split.
      - rewrite firstn_length, skipn_length. lia.
      - apply words_firstn, words_skipn; auto. }
    rewrite T. destruct (for_up 0 (dsz X) (fun j d => v <- load_vec X (map k mem) (p + j * ext X);; set d j v) d); [|discriminate].
    cbn [bind] in E |- *. rewrite for_up_empty in E |- * by lia. exact E.
  - intros i Hi. destruct (get_lt_ok mem (p + i)) as [x Gx]; [lia|]. exists x. split; auto. split.
    + apply get_ok in Gx. exact (proj1 (Forall_forall _ _) Hm _ (nth_error_In _ _ Gx)).
    + unfold elems. rewrite get_firstn by auto. rewrite C, get_firstn, get_skipn by lia. apply get_ok. rewrite nth_error_map. apply get_ok in Gx. rewrite Gx. reflexivity.
Qed.
Lemma copy_to_cvt_ok (K : vec -> vec) (k : Z -> Z) conv d mem p :
  (forall v, wfv X v -> K v = map k v) -> (forall x, word w x -> word w (k x)) ->
  p + dsz X * ext X <= length mem -> shaped X d ->
  exists mem', x_copy_to_cvt X K conv d mem p = Ok mem' /\ length mem' = length mem /\
    (forall i, i < p \/ p + dsz X * ext X <= i -> get mem' i = get mem i) /\
    forall i, i < xN X -> exists x, get (elems X d) i = Ok x /\ word w x /\ get mem' (p + i) = Ok (k x).
Proof.
  intros HK Hk HM Hd. pose proof (N_le_M HX) as NM.
  assert (Sd : shaped X (map (map k) d)).
  { destruct Hd as [L W]. split; [rewrite map_length; auto|]. apply Forall_forall. intros v Hv. apply in_map_iff in Hv. destruct Hv as (u & <- & Hu).
    pose proof (proj1 (Forall_forall _ _) W u Hu) as [Lu Wu]. split; [rewrite map_length; auto|].
    apply Forall_forall. intros y Hy. apply in_map_iff in Hy. destruct Hy as (x & <- & Hx). apply Hk. eapply words_In; eauto. }
  pose proof (@copy_to_vec X HX _ mem p Sd HM) as E. rewrite <- concat_map in E.
  assert (LC : length (concat d) = dsz X * ext X) by (apply concat_len; auto).
  eexists. split; [|split; [|split]].
  - unfold x_copy_to_cvt. unfold x_copy_to in E.
    assert (T : for_up 0 (dsz X) (fun j m => v <- get d j;; store_vec X m (p + j * ext X) (K v)) mem =
                for_up 0 (dsz X) (fun j m => v <- get (map (map k) d) j;; store_vec X m (p + j * ext X) v) mem).
    { apply for_up_ext. intros j t Hj. destruct (get_shaped Hd (i := j)) as (v & Gv & Lv & Wv); [lia|].
      rewrite Gv. replace (get (map (map k) d) j) with (Ok (map k v)). 2:{ symmetry. apply get_ok. rewrite nth_error_map. apply get_ok in Gv. rewrite Gv. reflexivity. }
      cbn [bind]. rewrite HK by (split; auto). reflexivity. }
    rewrite T. destruct (for_up 0 (dsz X) (fun j m => v <- get (map (map k) d) j;; store_vec X m (p + j * ext X) v) mem) as [t|]; [|discriminate].
    cbn [bind] in E |- *. rewrite for_up_empty in E |- * by lia. exact E.
  - rewrite !app_length, map_length, LC, firstn_length, skipn_length. lia.
  - intros i Hi. destruct Hi as [Hi|Hi].
    + rewrite get_app_l by (rewrite firstn_length; lia). apply get_firstn; auto.
    + rewrite get_app_r by (rewrite firstn_length; lia). rewrite get_app_r by (rewrite map_length, LC, firstn_length; lia).
      rewrite map_length, LC, firstn_length, get_skipn. f_equal. lia.
  - intros i Hi. destruct (get_lt_ok (elems X d) i) as [x Gx]; [rewrite elems_length; auto|]. exists x. split; auto. split.
    + apply get_ok in Gx. exact (proj1 (Forall_forall _ _) (elems_words Hd) _ (nth_error_In _ _ Gx)).
    + unfold elems in Gx. rewrite get_firstn in Gx by auto. rewrite get_app_r by (rewrite firstn_length; lia).
      rewrite firstn_length, get_app_l by (rewrite map_length, LC; lia). replace (p + i - Nat.min p (length mem)) with i by lia.
      apply get_ok. rewrite nth_error_map. apply get_ok in Gx. rewrite Gx. reflexivity.
Qed.
End Copy.
