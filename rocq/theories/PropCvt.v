(** Conversions between integer and floating-point elements on loads and stores (C34, C35, C47, C48).

    simd<T>::copy_from(const U *, vector_aligned) and copy_to(U *, vector_aligned) with sizeof(T) == sizeof(U) convert whole
    registers with cvt<To, From>.  [nearest_float f n y] (CvtProofs.v): y is finite and its value is the integer n rounded to the
    format, ties to even, with the sign of n. *)
From Coq Require Import ZifyBool ZifyNat Reals Lra.
From Flocq Require Import Core IEEE754.BinarySingleNaN IEEE754.Binary.
From Verif Require Import Base Cxx Spec Generic X86Vec X86 X86Lemmas X86Proofs X86Ops X86Mem Fp FpLemmas FpOps FMathProofs FFields PropX86 PropFloat Cvt CvtProofs.
Set Implicit Arguments.
Local Open Scope nat_scope.

(** Every element of a load (store) with conversion [K] is related by [P] to the source element of the same index; nothing
    outside the destination registers is written.  The memory must hold whole registers (see C22 for what happens otherwise). *)
Definition load_gives (X : xty) (K : vec -> vec) (P : Z -> Z -> Prop) : Prop :=
  forall conv mem p d, words (xw X) mem -> p + dsz X * ext X <= length mem -> shaped X d ->
  exists d', x_copy_from_cvt X K conv mem p d = Ok d' /\ shaped X d' /\
    forall i, i < xN X -> exists x y, get mem (p + i) = Ok x /\ get (elems X d') i = Ok y /\ P x y.
Definition store_gives (X : xty) (K : vec -> vec) (P : Z -> Z -> Prop) : Prop :=
  forall conv d mem p, p + dsz X * ext X <= length mem -> shaped X d ->
  exists mem', x_copy_to_cvt X K conv d mem p = Ok mem' /\ length mem' = length mem /\
    (forall i, i < p \/ p + dsz X * ext X <= i -> get mem' i = get mem i) /\
    forall i, i < xN X -> exists x y, get (elems X d) i = Ok x /\ get mem' (p + i) = Ok y /\ P x y.
Lemma both X (HX : xty_ok X) K k (P : Z -> Z -> Prop) : (forall v, wfv X v -> K v = map k v) ->
  (forall x, word (xw X) x -> word (xw X) (k x) /\ P x (k x)) -> load_gives X K P /\ store_gives X K P.
Proof.
  intros HK Hk. split.
  - intros conv mem p d Hm HM Hd. destruct (@copy_from_cvt_ok X HX K k conv mem p d HK (fun x H => proj1 (Hk x H)) Hm HM Hd) as (d' & E & Sh & G).
    exists d'. split; [|split]; auto. intros i Hi. destruct (G i Hi) as (x & G1 & G2 & G3). exists x, (k x). split; [|split]; auto. apply Hk; auto.
  - intros conv d mem p HM Hd. destruct (@copy_to_cvt_ok X HX K k conv d mem p HK (fun x H => proj1 (Hk x H)) HM Hd) as (d' & E & L & O & G).
    exists d'. split; [|split; [|split]]; auto. intros i Hi. destruct (G i Hi) as (x & G1 & G2 & G3). exists x, (k x). split; [|split]; auto. apply Hk; auto.
Qed.
Lemma xw4 X : esz (xT X) = 4 -> xw X = 32%Z. Proof. intros E. unfold xw, ew. rewrite E. reflexivity. Qed.
Lemma xw8 X : esz (xT X) = 8 -> xw X = 64%Z. Proof. intros E. unfold xw, ew. rewrite E. reflexivity. Qed.

(** *** C34: 64-bit integers to double *)
(** uint64 -> double: correctly rounded for every value, every width and instruction set *)
Theorem C34_uint64_to_double : forall X (HX : xty_ok X), esz (xT X) = 8 -> forall nn,
  load_gives X (cvt_to_f X false nn) (nearest_float F64) /\ store_gives X (cvt_to_f X false nn) (nearest_float F64).
Proof.
  intros X HX E nn. apply both with (k := u64l nn); auto.
  - intros v Hv. apply k_u64; auto.
  - intros x Hx. rewrite (@xw8 X E) in *. pose proof (u64l_ok nn Hx) as Q. split; [apply Q|exact Q].
Qed.
Print Assumptions C34_uint64_to_double.

(** int64 -> double: correctly rounded on 128-bit vectors when SSE4.1 is not enabled and on 256-bit vectors with AVX2.
    Missing: 128-bit vectors with SSE4.1 and 256-bit vectors without AVX2, where it is false (next theorem). *)
Theorem C34_int64_to_double_partial : forall X (HX : xty_ok X), esz (xT X) = 8 ->
  is256 X = false /\ sse41 (xc X) = false \/ is256 X = true /\ avx2 (xc X) = true -> forall nn,
  load_gives X (cvt_to_f X true nn) (fun x => nearest_float F64 (sgn 64 x)) /\ store_gives X (cvt_to_f X true nn) (fun x => nearest_float F64 (sgn 64 x)).
Proof.
  intros X HX E G nn. apply both with (k := i64l nn); auto.
  - intros v Hv. apply k_i64; auto.
  - intros x Hx. rewrite (@xw8 X E) in *. pose proof (i64l_ok nn Hx) as Q. split; [apply Q|exact Q].
Qed.
Print Assumptions C34_int64_to_double_partial.

(** Elsewhere the low dword is shifted in instead of the high one: EVERY negative value converts to a non-negative double,
    and 2^16 <= x < 2^31 converts to 2x (less its low 16 bits, once) - only 0 .. 2^16-1 survive. *)
Theorem C34_int64_to_double_sse41_refuted : forall X (HX : xty_ok X), esz (xT X) = 8 ->
  is256 X = false /\ sse41 (xc X) = true \/ is256 X = true /\ avx2 (xc X) = false -> forall nn,
  load_gives X (cvt_to_f X true nn) (fun x y => ((sgn 64 x < 0)%Z -> (0 <= val F64 y)%R) /\
    (0 <= x < 2 ^ 31 -> val F64 y = IZR (x + 2 ^ 16 * (x / 2 ^ 16)))%Z).
Proof.
  intros X HX E G nn. apply both with (k := i64l_sse4 nn); auto.
  - intros v Hv. apply k_i64_bad; auto. intros [[H1 H2] | [H1 H2]]; destruct G as [[G1 G2] | [G1 G2]]; congruence.
  - intros x Hx. rewrite (@xw8 X E) in *. destruct (i64l_sse4_val nn Hx) as (W & Fy & V & S). split; [exact W|]. rewrite V. split.
    + intros _. rewrite <- (rnd0 F64). apply round_le; try typeclasses eauto. apply IZR_le.
      pose proof (Z.mod_pos_bound x (2 ^ 48) ltac:(lia)). pose proof (srai_word (sgn 32 (x mod 2 ^ 32) / 2 ^ 16)). lia.
    + intros Hr. rewrite !Z.mod_small by lia.
      assert (S0 : sgn 32 x = x) by (unfold sgn; replace (x <? 2 ^ (32 - 1))%Z with true by lia; reflexivity). rewrite S0.
      pose proof (Z.div_mod x (2 ^ 16) ltac:(lia)). pose proof (Z.mod_pos_bound x (2 ^ 16) ltac:(lia)).
      unfold wrap. rewrite Z.mod_small by lia. apply rnd_int_exact. change (2 ^ prec F64)%Z with (2 ^ 53)%Z. lia.
Qed.
Print Assumptions C34_int64_to_double_sse41_refuted.

Definition d2 (c : cfg) : xty := {| xc := c; xT := {| esz := 8; ek := KFloat |}; xvs := 16; xN := 2 |}.
Definition d4 (c : cfg) : xty := {| xc := c; xT := {| esz := 8; ek := KFloat |}; xvs := 32; xN := 4 |}.
Example C34_case :
  xty_ok (d2 sse2) /\ xty_ok (d4 haswell) /\
  (* 2^53+1 ties to 2^53; 2^64-1 rounds to 2^64 *)
  x_copy_from_cvt (d2 sse2) (cvt_to_f (d2 sse2) false nans0) Ok [2 ^ 53 + 1; 2 ^ 64 - 1]%Z 0 [[0; 0]]%Z =
    Ok [[0x4340000000000000; 0x43f0000000000000]]%Z /\
  x_copy_from_cvt (d4 haswell) (cvt_to_f (d4 haswell) true nans0) Ok [2 ^ 64 - 1; 65536; 2 ^ 63; 5]%Z 0 [[0; 0; 0; 0]]%Z =
    Ok [[0xbff0000000000000; 0x40f0000000000000; 0xc3e0000000000000; 0x4014000000000000]]%Z /\
  (* the same on 128-bit SSE4.1: -1 becomes 562949953355775, 65536 becomes 131072 *)
  x_copy_from_cvt (d2 sse4) (cvt_to_f (d2 sse4) true nans0) Ok [2 ^ 64 - 1; 65536]%Z 0 [[0; 0]]%Z =
    Ok [[0x42ffffffffeffff0; 0x4100000000000000]]%Z.
Proof. split; [xok|]. split; [xok|]. vm_compute. repeat split. Qed.

(** *** C35: 32-bit unsigned integers *)
(** uint32 -> float is correctly rounded below 2^25 and for every even value; in general the low bit of larger values is
    dropped before rounding.  Missing: odd values above 2^25 (false, next theorem). *)
Theorem C35_uint32_to_float_partial : forall X (HX : xty_ok X), esz (xT X) = 4 -> forall nn,
  let P := fun x y => nearest_float F32 (if (x <? 2 ^ 25)%Z then x else x - x mod 2)%Z y in
  load_gives X (cvt_to_f X false nn) P /\ store_gives X (cvt_to_f X false nn) P.
Proof.
  intros X HX E nn P. apply both with (k := u32l nn); auto.
  - intros v Hv. apply k_u32; auto.
  - intros x Hx. rewrite (@xw4 X E) in *. pose proof (u32l_ok nn Hx) as Q. split; [apply Q|exact Q].
Qed.
Print Assumptions C35_uint32_to_float_partial.

Lemma nearest_unique f n y z : nearest_float f n y -> nearest_float f n z -> y = z.
Proof. intros (W1 & F1 & V1 & S1) (W2 & F2 & V2 & S2). apply (@bits_inj f); auto; congruence. Qed.
(** 2^25 + 3 converts to 2^25, while the nearest float is 2^25 + 4 *)
Theorem C35_uint32_to_float_refuted : forall X (HX : xty_ok X), esz (xT X) = 4 -> forall nn,
  load_gives X (cvt_to_f X false nn) (fun x y => x = (2 ^ 25 + 3)%Z -> ~ nearest_float F32 x y).
Proof.
  intros X HX E nn. apply both with (k := u32l nn); auto.
  - intros v Hv. apply k_u32; auto.
  - intros x Hx. rewrite (@xw4 X E) in *. pose proof (u32l_ok nn Hx) as Q. split; [apply Q|]. intros -> H.
    pose proof (@fof_int_ok F32 (2 ^ 25 + 3) ltac:(lia)) as Q1. pose proof (@fof_int_ok F32 (2 ^ 25 + 2) ltac:(lia)) as Q2.
    pose proof (nearest_unique H Q1) as R1. change (if (2 ^ 25 + 3 <? 2 ^ 25)%Z then 2 ^ 25 + 3 else 2 ^ 25 + 3 - (2 ^ 25 + 3) mod 2)%Z with (2 ^ 25 + 2)%Z in Q.
    pose proof (nearest_unique Q Q2) as R2. rewrite R1 in R2. vm_compute in R2. discriminate.
Qed.
Print Assumptions C35_uint32_to_float_refuted.

(** float -> uint32: the offset constant is 2^22 instead of 2^23, so the integer nearest to 2x is returned for every
    0 <= x < 2^22 - 1/4; every integral value 1 <= n < 2^22 comes out doubled. *)
Theorem C35_float_to_uint32_refuted : forall X (HX : xty_ok X), esz (xT X) = 4 -> forall nn,
  let P := fun x y => isfin F32 x = true -> (0 <= val F32 x < IZR (2 ^ 22) - / 4)%R -> y = ZnearestE (2 * val F32 x) /\
                      (forall n, (1 <= n)%Z -> val F32 x = IZR n -> y = (2 * n)%Z /\ y <> n) in
  load_gives X (cvt_of_f X false nn) P /\ store_gives X (cvt_of_f X false nn) P.
Proof.
  intros X HX E nn P. apply both with (k := f32_u32l nn); auto.
  - intros v Hv. apply k_f32_u32; auto.
  - intros x Hx. rewrite (@xw4 X E) in *. split; [apply f32_u32l_word|]. intros Fx Hr. pose proof (f32_u32l_twice nn Hx Fx Hr) as Q. split; auto.
    intros n Hn V. rewrite Q, V, <- mult_IZR. rewrite (Znearest_imp _ _ (2 * n)%Z) by (rewrite Rminus_diag_eq, Rabs_R0; [lra|auto]). lia.
Qed.
Print Assumptions C35_float_to_uint32_refuted.

Definition f4 (c : cfg) : xty := {| xc := c; xT := {| esz := 4; ek := KFloat |}; xvs := 16; xN := 4 |}.
Example C35_case : xty_ok (f4 sse2) /\
  x_copy_from_cvt (f4 sse2) (cvt_to_f (f4 sse2) false nans0) Ok [16777217; 4294967295; 33554435; 7]%Z 0 [[0; 0; 0; 0]]%Z =
    Ok [[0x4b800000; 0x4f800000; 0x4c000000; 0x40e00000]]%Z /\          (* 2^24, 2^32, 2^25 (wrong), 7 *)
  x_copy_to_cvt (f4 sse2) (cvt_of_f (f4 sse2) false nans0) Ok [[0x3f800000; 0x40e00000; 0; 0x3e800000]]%Z [9; 9; 9; 9]%Z 0 =
    Ok [2; 14; 0; 0]%Z.                                                 (* 1 -> 2, 7 -> 14, 0 -> 0, 1/4 -> 0 *)
Proof. split; [xok|]. vm_compute. repeat split. Qed.

(** *** C47: signed conversions *)
(** int32 -> float: correctly rounded for every value *)
Theorem C47_int32_to_float : forall X (HX : xty_ok X), esz (xT X) = 4 -> forall nn,
  let P := fun x => nearest_float F32 (sgn 32 x) in
  load_gives X (cvt_to_f X true nn) P /\ store_gives X (cvt_to_f X true nn) P.
Proof.
  intros X HX E nn P. apply both with (k := fun x => fof_int F32 (sgn 32 x)); auto.
  - intros v Hv. apply k_i32; auto.
  - intros x Hx. rewrite (@xw4 X E) in *. assert (Q : nearest_float F32 (sgn 32 x) (fof_int F32 (sgn 32 x))).
    { apply fof_int_ok. pose proof (@sgn_range 32 x ltac:(lia) Hx) as R. change (32 - 1)%Z with 31%Z in R. lia. }
    split; [apply Q|exact Q].
Qed.
Print Assumptions C47_int32_to_float.
(** float -> int32: the nearest integer (ties to even) whenever it fits *)
Theorem C47_float_to_int32 : forall X (HX : xty_ok X), esz (xT X) = 4 -> forall nn,
  let P := fun x y => word 32 y /\ (isfin F32 x = true -> (- 2 ^ 31 <= ZnearestE (val F32 x) < 2 ^ 31)%Z -> sgn 32 y = ZnearestE (val F32 x)) in
  load_gives X (cvt_of_f X true nn) P /\ store_gives X (cvt_of_f X true nn) P.
Proof.
  intros X HX E nn P. apply both with (k := fto_int nn F32 mode_NE 32); auto.
  - intros v Hv. apply k_f32_i32; auto.
  - intros x Hx. rewrite (@xw4 X E) in *. pose proof (@fto_int_word nn F32 mode_NE 32 x ltac:(lia)) as Q. split; auto. split; auto.
    intros Fx Hr. rewrite (@fto_int_ok nn F32 mode_NE 32 x) by auto with zarith. apply sgn_wrap; auto. lia.
Qed.
Print Assumptions C47_float_to_int32.
(** double -> int64: the nearest integer for |x| <= 2^51.  Missing: the rest of the int64 range (false: next theorem) *)
Theorem C47_double_to_int64_partial : forall X (HX : xty_ok X), esz (xT X) = 8 -> forall nn,
  let P := fun x y => word 64 y /\ (isfin F64 x = true -> (- IZR (2 ^ 51) <= val F64 x <= IZR (2 ^ 51))%R -> sgn 64 y = ZnearestE (val F64 x)) in
  load_gives X (cvt_of_f X true nn) P /\ store_gives X (cvt_of_f X true nn) P.
Proof.
  intros X HX E nn P. apply both with (k := f64_i64l nn); auto.
  - intros v Hv. apply k_f64_i64; auto.
  - intros x Hx. rewrite (@xw8 X E) in *. assert (Q : word 64 (f64_i64l nn x)) by (apply wrap_word; lia). split; auto. split; auto.
    intros Fx Hr. rewrite (f64_i64l_ok nn Hx Fx) by exact Hr. apply sgn_wrap; [lia|].
    pose proof (near_le _ (proj2 Hr)). assert (- 2 ^ 51 <= ZnearestE (val F64 x))%Z by (apply near_ge; rewrite opp_IZR; apply Hr). lia.
Qed.
Print Assumptions C47_double_to_int64_partial.
(** double -> uint64: the nearest integer for 0 <= x < 2^52 - 1/2.  Missing: the rest of the uint64 range *)
Theorem C47_double_to_uint64_partial : forall X (HX : xty_ok X), esz (xT X) = 8 -> forall nn,
  let P := fun x y => word 64 y /\ (isfin F64 x = true -> (0 <= val F64 x < IZR (2 ^ 52) - / 2)%R -> y = ZnearestE (val F64 x)) in
  load_gives X (cvt_of_f X false nn) P /\ store_gives X (cvt_of_f X false nn) P.
Proof.
  intros X HX E nn P. apply both with (k := f64_u64l nn); auto.
  - intros v Hv. apply k_f64_u64; auto.
  - intros x Hx. rewrite (@xw8 X E) in *. split; [apply f64_u64l_word|]. split; [apply f64_u64l_word|]. intros Fx Hr. apply f64_u64l_ok; auto.
Qed.
Print Assumptions C47_double_to_uint64_partial.
(** 2^53 is an int64 and a uint64 value, exactly representable as a double; both conversions get it wrong *)
Theorem C47_large_double_refuted : forall X (HX : xty_ok X), esz (xT X) = 8 -> forall sg nn,
  load_gives X (cvt_of_f X sg nn) (fun x y => x = 0x4340000000000000%Z -> val F64 x = IZR (2 ^ 53) /\ y <> (2 ^ 53)%Z).
Proof.
  intros X HX E sg nn. apply both with (k := if sg then f64_i64l nn else f64_u64l nn); auto.
  - intros v Hv. destruct sg; [apply k_f64_i64|apply k_f64_u64]; auto.
  - intros x Hx. rewrite (@xw8 X E) in *. split; [destruct sg; [apply wrap_word; lia|apply f64_u64l_word]|]. intros ->. split.
    + change 0x4340000000000000%Z with (join F64 false 0x434 0). rewrite join_val by (cbn; lia). cbn [sgnr]. rewrite bp by (cbn; lia). reflexivity.
    + destruct nn as [a b c]. destruct sg; vm_compute; discriminate.
Qed.
Print Assumptions C47_large_double_refuted.
Example C47_case :
  x_copy_to_cvt (f4 sse2) (cvt_of_f (f4 sse2) true nans0) Ok [[0x40200000; 0xc0300000; 0x7fc00000; 0x4f000000]]%Z [9; 9; 9; 9; 9]%Z 1 =
    Ok [9; 2; 2 ^ 32 - 3; 2 ^ 31; 2 ^ 31]%Z /\                           (* 2.5 -> 2, -2.75 -> -3, NaN, 2^31 -> INT_MIN *)
  x_copy_to_cvt (d4 haswell) (cvt_of_f (d4 haswell) true nans0) Ok [[0xbff8000000000000; 0x4320000000000000; 0; 0]]%Z [9; 9; 9; 9]%Z 0 =
    Ok [2 ^ 64 - 2; 2 ^ 51; 0; 0]%Z.
Proof. vm_compute. auto. Qed.

(** *** C48: the flag does not change the stored values *)
(** Loading int32 into float and uint64 into double: the whole-register path (vector_aligned) and the element path
    (element_aligned, static_cast: correctly rounded) give the same vector. *)
Lemma copy_from_elem_fun X (HX : xty_ok X) (k : Z -> Z) mem p d : words (xw X) mem -> p + xN X <= length mem -> shaped X d ->
  (forall x, word (xw X) x -> word (xw X) (k x)) ->
  exists d', x_copy_from X (fun x => Ok (k x)) false mem p d = Ok d' /\ shaped X d' /\
    forall i, i < xN X -> exists x, get mem (p + i) = Ok x /\ get (elems X d') i = Ok (k x).
Proof.
  intros Hm HM Hd Hk. pose proof (N_le_M HX) as NM. unfold x_copy_from. cbn [bind]. cbv zeta.
  set (f := fun i => x <- get mem (p + i);; Ok (k x)).
  assert (Hf : forall i v, i < xN X -> f i = Ok v -> word (xw X) v).
  { intros i v Hi H. unfold f in H. apply bind_ok in H. destruct H as (x & Gx & Cx). inversion Cx; subst. apply Hk. apply get_ok in Gx.
    exact (proj1 (Forall_forall _ _) Hm _ (nth_error_In _ _ Gx)). }
  rewrite (for_up_ext 0 (xN X) _ (fun i d => v <- f i;; xset X d i v)) by (intros; unfold f; rewrite bind_assoc; auto).
  pose proof (xloop HX f Hd NM Hf) as XL.
  destruct (fill (xN X) f (concat d)) as [c|] eqn:Fc.
  - destruct XL as (d' & E & Sh & C). exists d'. split; [|split]; auto. intros i Hi.
    apply fill_ok_iff in Fc; [|rewrite (@concat_len X); auto]. destruct Fc as (L & G & _).
    destruct (get_lt_ok mem (p + i)) as [x Gx]; [lia|]. exists x. split; auto. unfold elems. rewrite get_firstn, C, <- G by auto. unfold f. rewrite Gx. reflexivity.
  - exfalso. apply fill_ub_iff in Fc; [|rewrite (@concat_len X); auto]. destruct Fc as (i & Hi & Fi). unfold f in Fi.
    destruct (get_lt_ok mem (p + i)) as [x Gx]; [lia|]. rewrite Gx in Fi. discriminate.
Qed.
Theorem C48_int_to_float_paths_agree_partial : forall X (HX : xty_ok X) sg nn,
  esz (xT X) = 4 /\ sg = true \/ esz (xT X) = 8 /\ sg = false ->
  let f := if esz (xT X) =? 4 then F32 else F64 in
  let cast := fun x => Ok (fof_int f (if sg then sgn 32 x else x)) in
  forall mem p d, words (xw X) mem -> p + dsz X * ext X <= length mem -> shaped X d ->
  exists d1 d2, x_copy_from_cvt X (cvt_to_f X sg nn) cast mem p d = Ok d1 /\ x_copy_from X cast false mem p d = Ok d2 /\ elems X d1 = elems X d2.
Proof.
  intros X HX sg nn Hs f cast mem p d Hm HM Hd. pose proof (N_le_M HX) as NM.
  set (k := fun x => fof_int f (if sg then sgn 32 x else x)).
  assert (Hk : forall x, word (xw X) x -> word (xw X) (k x) /\ nearest_float f (if sg then sgn 32 x else x) (k x)).
  { intros x Hx. assert (Q : nearest_float f (if sg then sgn 32 x else x) (k x)).
    { apply fof_int_ok. destruct Hs as [[E ->] | [E ->]].
      - rewrite (@xw4 X E) in Hx. pose proof (@sgn_range 32 x ltac:(lia) Hx) as R. change (32 - 1)%Z with 31%Z in R. lia.
      - rewrite (@xw8 X E) in Hx. unfold word in Hx. lia. }
    split; auto. destruct Q as [Q _]. unfold f in Q. destruct Hs as [[E _] | [E _]]; rewrite E in Q; cbn in Q; [rewrite (@xw4 X E)|rewrite (@xw8 X E)]; exact Q. }
  destruct (@copy_from_elem_fun X HX k mem p d Hm ltac:(lia) Hd (fun x H => proj1 (Hk x H))) as (d2 & E2 & S2 & G2).
  assert (LG : load_gives X (cvt_to_f X sg nn) (fun x => nearest_float f (if sg then sgn 32 x else x))).
  { unfold f. destruct Hs as [[E ->] | [E ->]]; rewrite E; cbn [Nat.eqb]; [apply C47_int32_to_float|apply C34_uint64_to_double]; auto. }
  destruct (LG cast mem p d Hm HM Hd) as (d1 & E1 & S1 & G1). exists d1, d2. split; [exact E1|]. split; [exact E2|].
  apply list_get_ext; [rewrite !elems_length; auto|]. rewrite elems_length by auto. intros i Hi.
  destruct (G1 i Hi) as (x & y & A1 & A2 & A3). destruct (G2 i Hi) as (x' & B1 & B2). rewrite A1 in B1. inversion B1; subst x'. rewrite A2, B2. f_equal.
  eapply nearest_unique; [exact A3|]. apply Hk. apply get_ok in A1. exact (proj1 (Forall_forall _ _) Hm _ (nth_error_In _ _ A1)).
Qed.
Print Assumptions C48_int_to_float_paths_agree_partial.
(** Storing float as int: the element path truncates, the whole-register path rounds to nearest.  2.75 is stored as 3 with
    vector_aligned and as 2 with element_aligned. *)
Theorem C48_float_to_int_refuted : forall c, In c [sse2; sse4; avx1; haswell] -> forall nn,
  let x := [[0x40300000; 0x3f800000; 0x40000000; 0]]%Z in
  x_copy_to_cvt (f4 c) (cvt_of_f (f4 c) true nn) (cast_f2i nn F32 32) x [0; 0; 0; 0]%Z 0 = Ok [3; 1; 2; 0]%Z /\
  x_copy_to (f4 c) (cast_f2i nn F32 32) false x [0; 0; 0; 0]%Z 0 = Ok [2; 1; 2; 0]%Z.
Proof. intros c Hc nn. destruct nn. cbn in Hc. decompose [or] Hc; subst; try contradiction; vm_compute; auto. Qed.
Print Assumptions C48_float_to_int_refuted.
