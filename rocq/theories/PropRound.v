(** floor, ceil, trunc (C38), rint, nearbyint, lrint (C36), round, lround, iround (C37).

    [rounds_to f g x y]: the result y is the integer g(x) in floating point, with the sign of x; NaN gives NaN, infinities are kept.
    [rounds_val f g x y]: y is finite and equals g(x) (the sign of a zero is not claimed).
    Zfloor, Zceil, Ztrunc are the usual integer parts, ZnearestE the nearest integer with ties to even (Flocq), [away] the nearest
    integer with halves away from zero; the lemmas spec_* below characterise each of them by inequalities. *)
From Coq Require Import ZifyBool ZifyNat Reals Lra.
From Flocq Require Import Core IEEE754.BinarySingleNaN IEEE754.Binary.
From Verif Require Import Base Cxx Spec X86Vec X86 X86Lemmas X86Proofs X86Masks X86Ops X86Shift Fp FpLemmas FpOps FKern FMath FMathProofs FNext PropX86 PropFloat
  FLane FManip FManipLanes FFields FScalbn FRoute FRouteProofs PropManip Cvt CvtProofs PropCvt Logb LogbProofs PropLogb Round RoundProofs RoundLanes RoundSem RoundVec.
Set Implicit Arguments.
Local Open Scope nat_scope.

Lemma spec_floor r n : Zfloor r = n <-> (IZR n <= r < IZR n + 1)%R.
Proof. split; [intros <-; split; [apply Zfloor_lb|apply Zfloor_ub]|]. intros. apply Zfloor_imp. now rewrite plus_IZR. Qed.
Lemma spec_ceil r n : Zceil r = n <-> (IZR n - 1 < r <= IZR n)%R.
Proof. split; [intros <-; split; [pose proof (Zceil_lb r); lra|apply Zceil_ub]|]. intros. apply Zceil_imp. now rewrite minus_IZR. Qed.
Lemma spec_trunc r n : Ztrunc r = n <-> (if Rle_bool 0 r then IZR n <= r < IZR n + 1 else IZR n - 1 < r <= IZR n)%R.
Proof.
  destruct (Rle_bool_spec 0 r) as [L|L]. { rewrite Ztrunc_floor by auto. apply spec_floor. } rewrite Ztrunc_ceil by lra. apply spec_ceil.
Qed.
Lemma spec_away r n : away r = n <-> (if Rle_bool 0 r then IZR n - / 2 <= r < IZR n + / 2 else IZR n - / 2 < r <= IZR n + / 2)%R.
Proof.
  unfold away. destruct (Rle_bool_spec 0 r) as [L|L].
  - rewrite Rlt_bool_false by auto. rewrite spec_floor. split; lra.
  - rewrite Rlt_bool_true by auto. assert (Q : (- Zfloor (- r + / 2) = n <-> Zfloor (- r + / 2) = - n)%Z) by lia. rewrite Q, spec_floor, opp_IZR. split; lra.
Qed.
Lemma spec_near r : (Rabs (r - IZR (ZnearestE r)) <= / 2)%R /\ (Rabs (r - IZR (ZnearestE r)) = / 2 -> Z.even (ZnearestE r) = true)%R.
Proof.
  split. { apply Znearest_half. } intros E. unfold Znearest in *. pose proof (Zfloor_lb r). pose proof (Zfloor_ub r).
  destruct (Rcompare_spec (r - IZR (Zfloor r)) (/ 2)) as [C|C|C].
  - rewrite Rabs_pos_eq in E by lra. lra.
  - destruct (Z.even (Zfloor r)) eqn:V; cbn [negb]; auto. assert (Zceil r = Zfloor r + 1)%Z as ->. { apply Zceil_floor_neq. lra. } rewrite Z.even_add, V. reflexivity.
  - destruct (Req_dec (IZR (Zfloor r)) r) as [Q|Q]. { rewrite Q in C. lra. } rewrite (Zceil_floor_neq _ Q), plus_IZR in E. rewrite Rabs_left in E by lra. lra.
Qed.

(** the function returning J-elements is defined and P holds between every element of x and the corresponding (signed, w bits wide) result *)
Definition int_each (w : Z) (X J : xty) (x : list vec) (r : res (list vec)) (P : Z -> Z -> Prop) : Prop :=
  exists e, r = Ok e /\ shaped J e /\
    forall i xi, nth_error (elems X x) i = Some xi -> exists ei, nth_error (elems J e) i = Some ei /\ P xi (sgn w ei).
(** n is representable as a w-bit signed integer *)
Definition fits (w n : Z) : Prop := (- 2 ^ (w - 1) <= n < 2 ^ (w - 1))%Z.

Section Vec.
Context {X : xty} (HX : xty_ok X) (HF : is_int (xT X) = false) (nn : nans).
Lemma k_each (K : vec -> vec) (g : Z -> Z) x (P : Z -> Z -> Prop) :
  (forall k a v, k < ext X -> L X k a v -> L X k (K a) (g v)) -> shaped X x -> (forall v, word (xw X) v -> P v (g v)) -> each1 X x (vz1 X (fun v => Ok (K v)) x) P.
Proof.
  intros L1 Hx H. assert (M1 := kernel1L HX _ _ L1). pose proof (@lane_word X HX _ _ L1) as W1.
  eapply (map1_each HX Hx); [|exact H]. apply vz1_map; auto. intros v Hv. now rewrite M1.
Qed.
Lemma x_ceil_each x (P : Z -> Z -> Prop) : shaped X x -> (forall v, word (fw (xf X)) v -> P v (ceil1 X nn v)) -> each1 X x (x_ceil X nn x) P.
Proof. intros Hx H. rewrite <- (xw_fw HX HF) in H. apply (@k_each (k_ceil X nn) (ceil1 X nn)); auto. intros. now apply k_ceil_lane. Qed.
Lemma x_floor_each x (P : Z -> Z -> Prop) : shaped X x -> (forall v, word (fw (xf X)) v -> P v (floor1 X nn v)) -> each1 X x (x_floor X nn x) P.
Proof. intros Hx H. rewrite <- (xw_fw HX HF) in H. apply (@k_each (k_floor X nn) (floor1 X nn)); auto. intros. now apply k_floor_lane. Qed.
Lemma x_trunc_each x (P : Z -> Z -> Prop) : shaped X x -> (forall v, word (fw (xf X)) v -> P v (truncl X nn v)) -> each1 X x (x_trunc X nn x) P.
Proof. intros Hx H. rewrite <- (xw_fw HX HF) in H. apply (@k_each (k_trunc X nn) (truncl X nn)); auto. intros. now apply k_trunc_lane. Qed.
Lemma x_rint_each x (P : Z -> Z -> Prop) : shaped X x -> (forall v, word (fw (xf X)) v -> P v (rint1 X nn v)) -> each1 X x (x_rint X nn x) P.
Proof. intros Hx H. rewrite <- (xw_fw HX HF) in H. apply (@k_each (k_rint X nn) (rint1 X nn)); auto. intros. now apply k_rint_lane. Qed.
Lemma x_round_each x (P : Z -> Z -> Prop) : shaped X x -> (forall v, word (fw (xf X)) v -> P v (round1 X nn v)) -> each1 X x (x_round X nn x) P.
Proof. intros Hx H. rewrite <- (xw_fw HX HF) in H. apply (@k_each (k_round X nn) (round1 X nn)); auto. intros. now apply k_round_lane. Qed.
(** float -> int: same registers *)
Lemma int_reg J x (K : vec -> vec) (g : Z -> Z) (P : Z -> Z -> Prop) : esz (xT X) = 4 -> int_vec_of X J ->
  (forall k a v, k < ext X -> L X k a v -> L X k (K a) (g v)) -> shaped X x -> (forall v, word 32 v -> P v (sgn 32 (g v))) ->
  int_each 32 X J x (vz1 X (fun v => Ok (K v)) x) P.
Proof.
  intros E (_ & EN & E4 & _ & EV) L1 Hx H. assert (EV' : xvs J = xvs X) by (destruct EV as [V|(V0 & _)]; [auto|congruence]).
  destruct (@k_each K g x (fun v y => P v (sgn 32 y)) L1 Hx) as (e & A & B & C). { unfold xw, ew. rewrite E. exact H. }
  exists e. split; auto. split. { unfold shaped, wfv, dsz, ext, xw, ew in *. rewrite E4, EN, EV'. rewrite E in B. exact B. }
  unfold elems in *. rewrite EN. exact C.
Qed.
(** a vector of N copies of c *)
Lemma fill_ok c : word (fw (xf X)) c -> shaped X (repeat (v_fill X c) (dsz X)) /\ forall i xi, nth_error (elems X (repeat (v_fill X c) (dsz X))) i = Some xi -> xi = c.
Proof.
  intros Wc. rewrite <- (xw_fw HX HF) in Wc. split.
  - split. apply repeat_length. apply Forall_forall. intros v Hv. apply repeat_spec in Hv. subst v. unfold v_fill. split. apply repeat_length.
    apply Forall_forall. intros y Hy. apply repeat_spec in Hy. subst y. exact Wc.
  - intros i xi Hi. assert (In xi (concat (repeat (v_fill X c) (dsz X)))). { apply nth_error_In in Hi. unfold elems in Hi. rewrite <- (firstn_skipn (xN X)). apply in_or_app. now left. }
    apply in_concat in H. destruct H as (l & Hl & Hi'). apply repeat_spec in Hl. subst l. unfold v_fill in Hi'. now apply repeat_spec in Hi'.
Qed.
End Vec.
Ltac by_xf H := match goal with HX : xty_ok ?X, HF : is_int (xT ?X) = false |- _ => destruct (xT_float HX HF) as [(?E4 & Ef & _) | (?E8 & Ef & _)]; rewrite Ef in * end.

(** *** C38 *)
(** With SSE4.1, and for every 256-bit vector: all bit patterns. *)
Theorem C38_native_partial : forall nn X x, xty_ok X -> is_int (xT X) = false -> is256 X = true \/ sse41 (xc X) = true -> shaped X x ->
  each1 X x (x_ceil X nn x) (rounds_to (xf X) Zceil) /\
  each1 X x (x_floor X nn x) (rounds_to (xf X) Zfloor) /\
  each1 X x (x_trunc X nn x) (rounds_to (xf X) Ztrunc).
Proof.
  intros nn X x HX HF N Hx. assert (E : native_round X = true) by (unfold native_round; destruct N as [-> | ->]; auto using orb_true_r).
  split; [apply x_ceil_each|split; [apply x_floor_each|apply x_trunc_each]]; auto; intros v Hv; [unfold ceil1|unfold floor1|unfold truncl]; rewrite E.
  - exact (fround_ok nn mode_UP Hv).
  - exact (fround_ok nn mode_DN Hv).
  - exact (fround_ok nn mode_ZR Hv).
Qed.
Print Assumptions C38_native_partial.
Example C38_native_case : xty_ok (f4 sse4) /\ sse41 (xc (f4 sse4)) = true /\
  x_floor (f4 sse4) nans0 [[0xc0200000; 0x3f000000; 0x7f800000; 0xbf800000]]%Z = Ok [[0xc0400000; 0; 0x7f800000; 0xbf800000]]%Z.   (* -2.5, 0.5, inf, -1 *)
Proof. split; [xok|split; [reflexivity|vm_compute; reflexivity]]. Qed.

(** Without SSE4.1: ceil, floor (and trunc for float) return the right value when the integer part of x fits a 32-bit integer; zero results are always +0. *)
Theorem C38_sse2_partial : forall nn X x, xty_ok X -> is_int (xT X) = false -> shaped X x ->
  is256 X = false -> sse41 (xc X) = false ->
  each1 X x (x_ceil X nn x) (fun x y => isfin (xf X) x = true -> fits 32 (Ztrunc (val (xf X) x)) -> rounds_val (xf X) Zceil x y) /\
  each1 X x (x_floor X nn x) (fun x y => isfin (xf X) x = true -> fits 32 (Ztrunc (val (xf X) x)) -> rounds_val (xf X) Zfloor x y) /\
  (esz (xT X) = 4 -> each1 X x (x_trunc X nn x) (fun x y => isfin (xf X) x = true -> fits 32 (Ztrunc (val (xf X) x)) -> rounds_val (xf X) Ztrunc x y)).
Proof.
  intros nn X x HX HF Hx E2 E4. assert (E : native_round X = false) by (unfold native_round; now rewrite E2, E4).
  split; [apply x_ceil_each|split; [apply x_floor_each|intros E4'; apply x_trunc_each]]; auto; intros v Hv Fv R; [unfold ceil1|unfold floor1|unfold truncl]; rewrite E, ?(xw_fw HX HF).
  - exact (ceil_sse2 nn Hv (conj Fv R)).
  - exact (floor_sse2 nn Hv (conj Fv R)).
  - rewrite E4'. cbn [Nat.eqb]. exact (proj2 (txf_ok nn Hv (conj Fv R))).
Qed.
Print Assumptions C38_sse2_partial.
Example C38_sse2_case : xty_ok (d2 sse2) /\ x_ceil (d2 sse2) nans0 [[0xc004000000000000; 0x3fe0000000000000]]%Z = Ok [[0xc000000000000000; 0x3ff0000000000000]]%Z.
Proof. split; [xok|vm_compute; reflexivity]. Qed.

(** trunc of double without SSE4.1: right for every bit pattern with SSE3; without SSE3 right outside 2^-12 <= |x| < 1. *)
Theorem C38_trunc_double_partial : forall nn X x, xty_ok X -> is_int (xT X) = false -> shaped X x -> esz (xT X) = 8 ->
  is256 X = false -> sse41 (xc X) = false ->
  each1 X x (x_trunc X nn x) (fun x y => sse3 (xc X) = true \/ isfin F64 x = false \/ (Rabs (val F64 x) < / IZR (2 ^ 12))%R \/ (1 <= Rabs (val F64 x))%R -> rounds_to F64 Ztrunc x y).
Proof.
  intros nn X x HX HF Hx E8 E2 E4. assert (E : native_round X = false) by (unfold native_round; now rewrite E2, E4).
  assert (Ef : xf X = F64) by (destruct (xT_float HX HF) as [(Q & _) | (_ & Q & _)]; [congruence|auto]).
  apply x_trunc_each; auto; intros v Hv C. rewrite Ef in Hv. unfold truncl. rewrite E, E8. cbn [Nat.eqb]. apply trunc1_ok; auto. destruct C as [C|[C|C]]; [left; exact C| |]; right; intros Fv; [congruence|exact C].
Qed.
Print Assumptions C38_trunc_double_partial.
Definition sse3c : cfg := {| sse3 := true; ssse3 := false; sse41 := false; avx := false; avx2 := false |}.
Example C38_trunc_double_case : xty_ok (d2 sse3c) /\ x_trunc (d2 sse3c) nans0 [[0xbfe0000000000000; 0x400c000000000000]]%Z = Ok [[0x8000000000000000; 0x4008000000000000]]%Z.
Proof. split; [xok|vm_compute; reflexivity]. Qed.

(** Without SSE4.1 the value is lost outside the int32 range: NaN and infinities become a finite number, and every x >= 2^31 becomes a negative number. *)
Lemma fto_int_bad nn f md w x : word (fw f) x -> isfin f x = false \/ ~ fits w (round_mode md (val f x)) -> fto_int nn f md w x = (2 ^ (w - 1))%Z.
Proof.
  intros Hx C. unfold fto_int. destruct (isfin f x) eqn:F; cbn [andb]; auto. destruct C as [C|C]; [discriminate|].
  assert (E : Btrunc _ _ (Bnearbyint _ _ (Hprec_emax f) (n1 nn f) md (dec f x)) = round_mode md (val f x)).
  { apply eq_IZR. rewrite Btrunc_correct by apply Hprec_emax. destruct (@fround_fin nn f md x Hx F) as (C1 & _). unfold fround in C1. rewrite val_enc in C1. rewrite C1.
    unfold round, scaled_mantissa, cexp, FIX_exp, F2R. cbn [Fnum Fexp bpow Z.opp]. rewrite !Rmult_1_r, Ztrunc_IZR. reflexivity. }
  rewrite E. unfold fits in C. replace (_ && _) with false by lia. reflexivity.
Qed.
Lemma trunc_big r : (IZR (2 ^ 31) <= r)%R -> ~ fits 32 (Ztrunc r).
Proof. intros H F. unfold fits in F. assert (2 ^ 31 <= Ztrunc r)%Z. { rewrite <- (Ztrunc_IZR (2 ^ 31)). now apply Ztrunc_le. } change (32 - 1)%Z with 31%Z in F. lia. Qed.
Lemma neg_val f y : word (fw f) y -> isfin f y = true -> (fsign (fw f) y = true)%Z -> (fmag (fw f) y <> 0)%Z -> (val f y < 0)%R.
Proof.
  intros Wy Fy Sy Ny. rewrite (val_sgnr Wy Fy), Sy. cbn [sgnr]. pose proof (fin_word f Wy). assert (Q := @mval_ge_emin f (fmag (fw f) y) ltac:(lia)). pose proof (bpow_gt_0 radix2 (emin f)). lra.
Qed.
Theorem C38_sse2_range_refuted : forall nn X x, xty_ok X -> is_int (xT X) = false -> shaped X x -> is256 X = false -> sse41 (xc X) = false ->
  let wrong := fun (g : R -> Z) x y => isfin (xf X) x = false \/ (IZR (2 ^ 31) <= val (xf X) x)%R -> isfin (xf X) y = true /\ (val (xf X) y < 0)%R /\ ~ rounds_to (xf X) g x y in
  each1 X x (x_ceil X nn x) (wrong Zceil) /\ each1 X x (x_floor X nn x) (wrong Zfloor) /\ (esz (xT X) = 4 -> each1 X x (x_trunc X nn x) (wrong Ztrunc)).
Proof.
  intros nn X x HX HF Hx E2 E4. assert (E : native_round X = false) by (unfold native_round; now rewrite E2, E4). cbv zeta.
  assert (K : forall g v y, word (fw (xf X)) v -> (forall r, (0 <= r)%R -> (0 <= g r)%Z) -> (isfin (xf X) v = false \/ (IZR (2 ^ 31) <= val (xf X) v)%R -> isfin (xf X) y = true /\ (val (xf X) y < 0)%R) ->
     isfin (xf X) v = false \/ (IZR (2 ^ 31) <= val (xf X) v)%R -> isfin (xf X) y = true /\ (val (xf X) y < 0)%R /\ ~ rounds_to (xf X) g v y).
  { intros g v y Hv Hg Q C. destruct (Q C) as [Fy Vy]. split; auto. split; auto. unfold rounds_to. destruct (isnanb (xf X) v) eqn:N.
    - intros Ny. rewrite (fin_nan _ Fy) in Ny. discriminate.
    - destruct (isfin (xf X) v) eqn:Fv; [|intros ->; congruence]. intros (_ & V & _). destruct C as [C|C]; [discriminate|]. assert (0 <= IZR (g (val (xf X) v)))%R; [|lra]. apply IZR_le. apply Hg. apply Rle_trans with (2 := C). apply IZR_le. lia. }
  assert (T : forall v, word (fw (xf X)) v -> isfin (xf X) v = false \/ (IZR (2 ^ 31) <= val (xf X) v)%R -> tx1 X nn v = fof_int (xf X) (- 2 ^ 31)).
  { intros v Hv C. unfold tx1. rewrite fto_int_bad; auto. destruct C as [C|C]; auto. right. cbn [round_mode]. now apply trunc_big. }
  assert (G : forall y, y = fof_int (xf X) (- 2 ^ 31) \/ y = fadd nn (xf X) (fof_int (xf X) (- 2 ^ 31)) (fone (xw X)) \/ y = fadd nn (xf X) (fof_int (xf X) (- 2 ^ 31)) 0 \/ y = fsub nn (xf X) (fof_int (xf X) (- 2 ^ 31)) (fone (xw X)) \/ y = fsub nn (xf X) (fof_int (xf X) (- 2 ^ 31)) 0 ->
    isfin (xf X) y = true /\ (val (xf X) y < 0)%R).
  { rewrite (xw_fw HX HF). clear. intros y C. assert (Q : (word (fw (xf X)) y /\ isfin (xf X) y = true /\ fsign (fw (xf X)) y = true /\ (fmag (fw (xf X)) y =? 0)%Z = false)).
    { destruct nn, (xf X); repeat destruct C as [-> |C]; subst; unfold word; vm_compute; repeat split; discriminate. }
    destruct Q as (Wy & Fy & Sy & Ny). split; auto. apply neg_val; auto. lia. }
  split; [apply x_ceil_each|split; [apply x_floor_each|intros E4'; apply x_trunc_each]]; auto; intros v Hv; apply K; auto.
  - intros r Hr. assert (-1 < Zceil r)%Z; [|lia]. apply lt_IZR. pose proof (Zceil_ub r). lra.
  - intros C. unfold ceil1. rewrite E, (T v Hv C). apply G. destruct (flt _ _ _); tauto.
  - intros r Hr. apply Zfloor_lub. exact Hr.
  - intros C. unfold floor1. rewrite E, (T v Hv C). apply G. destruct (flt _ _ _); tauto.
  - intros r Hr. rewrite Ztrunc_floor by auto. apply Zfloor_lub. exact Hr.
  - intros C. unfold truncl. rewrite E, E4', (T v Hv C). cbn [Nat.eqb]. apply G. auto.
Qed.
Print Assumptions C38_sse2_range_refuted.
Example C38_sse2_range_case : xty_ok (f4 sse2) /\ x_floor (f4 sse2) nans0 [[0x4f000000; 0x7f800000; 0x7fc00000; 0x50000000]]%Z = Ok [[0xcf000000; 0xcf000000; 0xcf000000; 0xcf000000]]%Z.   (* 2^31, inf, NaN, 2^33 *)
Proof. split; [xok|vm_compute; reflexivity]. Qed.
(** Without SSE3, trunc of every double with 2^-9 <= |x| < 1 is not zero. *)
Lemma trunc1_bad x c : sse3 c = false -> word 64 x -> (1014 <= mexp F64 (fmag 64 x) < 1023)%Z -> fmag 64 (trunc1 c x) <> 0%Z.
Proof.
  intros C Hx R. unfold trunc1. rewrite (trunc1_field Hx), C. cbv zeta. pose proof (@exp_field F64 x Hx) as EF. cbn [mw fw eb] in EF. change (2 ^ 11 - 1)%Z with (Z.ones 11) in EF. rewrite Z.land_ones in EF by lia. unfold lshr_bits in EF.
  set (m := mexp F64 (fmag 64 x)) in *. clearbody m.
  replace (m - 1023 + 12 <? 0)%Z with false by lia. unfold srl64. replace (m - 1023 + 12 <? 64)%Z with true by lia.
  assert (B : Z.testbit x 61 = true).
  { assert (B : Z.testbit m 9 = true). { clear EF. assert (D : (m = 1014 \/ m = 1015 \/ m = 1016 \/ m = 1017 \/ m = 1018 \/ m = 1019 \/ m = 1020 \/ m = 1021 \/ m = 1022)%Z) by lia. repeat destruct D as [-> |D]; subst; reflexivity. }
    rewrite <- EF in B. rewrite Z.mod_pow2_bits_low, Z.div_pow2_bits in B by lia. exact B. }
  assert (D : Z.testbit (fmag 64 (Z.ldiff x ((2 ^ 64 - 1) / 2 ^ (m - 1023 + 12)))) 61 = true).
  { unfold fmag. rewrite Z.mod_pow2_bits_low by lia. rewrite Z.ldiff_spec, B. cbn [andb]. rewrite Z.div_pow2_bits by lia. change (2 ^ 64 - 1)%Z with (Z.ones 64). rewrite Z.testbit_ones_nonneg by lia.
    replace (61 + (m - 1023 + 12) <? 64)%Z with false by lia. reflexivity. }
  intros Q. rewrite Q in D. discriminate.
Qed.
Theorem C38_trunc_no_sse3_refuted : forall nn X x, xty_ok X -> is_int (xT X) = false -> shaped X x -> esz (xT X) = 8 -> is256 X = false -> sse3 (xc X) = false ->
  each1 X x (x_trunc X nn x) (fun x y => isfin F64 x = true -> (/ IZR (2 ^ 9) <= Rabs (val F64 x) < 1)%R -> ~ rounds_to F64 Ztrunc x y).
Proof.
  intros nn X x HX HF Hx E8 E2 E3. assert (E4 : sse41 (xc X) = false). { destruct HX as (HC & _). unfold cfg_ok in HC. destruct (sse41 (xc X)), (sse3 (xc X)), (ssse3 (xc X)); intuition congruence. }
  assert (E : native_round X = false) by (unfold native_round; now rewrite E2, E4).
  assert (Ef : xf X = F64) by (destruct (xT_float HX HF) as [(Q & _) | (_ & Q & _)]; [congruence|auto]).
  apply x_trunc_each; auto; intros v Hv Fv R. rewrite Ef in Hv. unfold truncl. rewrite E, E8. cbn [Nat.eqb]. unfold rounds_to. rewrite (fin_nan _ Fv), Fv. intros (Fy & Vy & _).
  assert (Wy : word (fw F64) (trunc1 (xc X) v)) by (apply (@trunc1_word X); auto).
  assert (T0 : Ztrunc (val F64 v) = 0%Z). { destruct (Rle_lt_dec 0 (val F64 v)) as [P|P]; [rewrite Rabs_pos_eq in R by auto; rewrite Ztrunc_floor by auto; apply Zfloor_imp; cbn; lra|]. rewrite Rabs_left in R by auto. rewrite Ztrunc_ceil by lra. apply Zceil_imp. cbn. lra. }
  rewrite T0 in Vy. apply (val_zero F64 Wy Fy) in Vy. revert Vy. apply trunc1_bad; auto.
  rewrite (abs_val F64 Hv Fv) in R. cbn [fw] in R. set (m := fmag 64 v) in *. pose proof (fmag_range (f := F64) v) as [P _]. cbn [fw] in P. fold m in P.
  destruct (Z.eq_dec (mexp F64 m) 0) as [E0|E0].
  - exfalso. destruct (Z.eq_dec m 0) as [M0|M0]. { rewrite M0, mval_0 in R. assert (0 < / IZR (2 ^ 9))%R by (apply Rinv_0_lt_compat, IZR_lt; lia). lra. }
    assert (Lm : (Z.log2 m < 52)%Z). { apply Z.log2_lt_pow2; [lia|]. pose proof (mag_split (f := F64) m) as S. cbn [fw mw] in S. fold m in S. pose proof (mman_range (f := F64) m). cbn [mw] in *. lia. }
    pose proof (@mval_subnormal F64 m ltac:(lia) E0) as [_ Q]. assert (Q2 : (mval F64 m < bpow radix2 (-9))%R). { eapply Rlt_le_trans; [exact Q|]. apply bpow_le. change (emin F64) with (-1074)%Z. lia. } change (bpow radix2 (-9)) with (/ IZR (2 ^ 9))%R in Q2. lra.
  - pose proof (mexp_range (f := F64) v) as Rm. cbn [fw eb] in Rm. fold m in Rm. destruct (@mval_normal F64 m) as [B1 B2]; [lia|lia|]. cbn [eb] in B1, B2. change (2 ^ (11 - 1) - 1)%Z with 1023%Z in *. split.
    + assert (-9 < mexp F64 m - 1023 + 1)%Z; [|lia]. apply (lt_bpow radix2). eapply Rle_lt_trans; [|exact B2]. exact (proj1 R).
    + assert (mexp F64 m - 1023 < 0)%Z; [|lia]. apply (lt_bpow radix2). eapply Rle_lt_trans; [exact B1|]. exact (proj2 R).
Qed.
Print Assumptions C38_trunc_no_sse3_refuted.
Example C38_trunc_no_sse3_case : xty_ok (d2 sse2) /\ x_trunc (d2 sse2) nans0 [[0x3fe0000000000000; 0xbfe8000000000000]]%Z = Ok [[0x3fe0000000000000; 0xbfe0000000000000]]%Z.   (* 0.5, -0.75 *)
Proof. split; [xok|vm_compute; reflexivity]. Qed.

(** *** C36 *)
(** rint and nearbyint: all bit patterns with SSE4.1, for 256-bit vectors and for float on every build; for double without SSE4.1 when |x| <= 2^52. *)
Lemma match_esz {X} (HX : xty_ok X) (HF : is_int (xT X) = false) (a b : Z) : (if esz (xT X) =? 4 then a else b) = match xf X with F32 => a | F64 => b end.
Proof. destruct (xT_float HX HF) as [(-> & -> & _) | (-> & -> & _)]; reflexivity. Qed.
Theorem C36_rint_partial : forall nn X x, xty_ok X -> is_int (xT X) = false -> shaped X x ->
  let P := fun x y => esz (xT X) = 4 \/ is256 X = true \/ sse41 (xc X) = true \/ isfin (xf X) x = false \/ (Rabs (val (xf X) x) <= IZR (2 ^ 52))%R -> rounds_to (xf X) ZnearestE x y in
  each1 X x (x_rint X nn x) P /\ each1 X x (x_nearbyint X nn x) P.
Proof.
  intros nn X x HX HF Hx P. cut (each1 X x (x_rint X nn x) P). { intros H. split; exact H. } subst P.
  apply x_rint_each; auto. intros v Hv C. unfold rint1. destruct (native_round X) eqn:E. { exact (fround_ok nn mode_NE Hv). }
  unfold native_round in E. apply orb_false_iff in E. destruct E as [E2 E4]. cbv zeta. rewrite (match_esz HX HF), (xw_fw HX HF). assert (Q := @rint_sse2 (xf X) nn v Hv). unfold rint_core in Q. cbv zeta in Q. apply Q. clear Q.
  destruct (xT_float HX HF) as [(E & Ef & _) | (E & Ef & _)]; rewrite Ef in *; auto. right. destruct C as [C|[C|[C|[C|C]]]]; [congruence|congruence|congruence|left; exact C|right; exact C].
Qed.
Print Assumptions C36_rint_partial.
(** float: rint is right for every bit pattern on every build *)
Theorem C36_rint_float : forall nn X x, xty_ok X -> is_int (xT X) = false -> esz (xT X) = 4 -> shaped X x ->
  each1 X x (x_rint X nn x) (rounds_to F32 ZnearestE) /\ each1 X x (x_nearbyint X nn x) (rounds_to F32 ZnearestE).
Proof.
  intros nn X x HX HF E Hx. cut (each1 X x (x_rint X nn x) (rounds_to F32 ZnearestE)). { intros H. split; exact H. }
  destruct (C36_rint_partial nn HX HF Hx) as [(v & A & B & C) _]. exists v. split; auto. split; auto. intros i xi Hi. destruct (C i xi Hi) as (y & D1 & D2). exists y. split; auto.
  assert (Ef : xf X = F32) by (destruct (xT_float HX HF) as [(_ & Q & _) | (Q & _)]; [auto|congruence]). rewrite Ef in D2. auto.
Qed.
Print Assumptions C36_rint_float.
Example C36_rint_case : xty_ok (f4 sse2) /\ x_rint (f4 sse2) nans0 [[0x40200000; 0xbf000000; 0x7f800000; 0x3fc00000]]%Z = Ok [[0x40000000; 0x80000000; 0x7f800000; 0x40000000]]%Z.   (* 2.5, -0.5, inf, 1.5 *)
Proof. split; [xok|vm_compute; reflexivity]. Qed.
(** double without SSE4.1: rint(2^52 + 1) = 2^52. *)
Theorem C36_rint_double_refuted : forall nn X, xty_ok X -> is_int (xT X) = false -> esz (xT X) = 8 -> is256 X = false -> sse41 (xc X) = false ->
  exists x, shaped X x /\ each1 X x (x_rint X nn x) (fun x y => x = 0x4330000000000001%Z /\ isfin F64 x = true /\ y = 0x4330000000000000%Z /\ ~ rounds_to F64 ZnearestE x y).
Proof.
  intros nn X HX HF E8 E2 E4. assert (E : native_round X = false) by (unfold native_round; now rewrite E2, E4).
  assert (Ef : xf X = F64) by (destruct (xT_float HX HF) as [(Q & _) | (_ & Q & _)]; [congruence|auto]).
  set (c := 0x4330000000000001%Z). assert (Wc : word (fw F64) c) by (unfold word, c; cbn; lia). exists (repeat (v_fill X c) (dsz X)). destruct (@fill_ok X HX HF c) as [S A]. { rewrite Ef. exact Wc. }
  split; auto. destruct (@x_rint_each X HX HF nn _ (fun v y => y = rint1 X nn v) S (fun v _ => eq_refl)) as (v & B1 & B2 & B3). exists v. split; auto. split; auto.
  intros i xi Hi. destruct (B3 i xi Hi) as (y & D1 & D2). exists y. split; auto. rewrite (A i xi Hi) in *. split; auto. assert (Fc : isfin F64 c = true) by (vm_compute; reflexivity). split; auto.
  assert (Ey : y = 0x4330000000000000%Z). { rewrite D2. unfold rint1. rewrite E, E8, (xw_fw HX HF), Ef. clear. destruct nn. vm_compute. reflexivity. }
  split; auto. rewrite Ey. unfold rounds_to. rewrite (fin_nan _ Fc), Fc. intros (Fy & Vy & _). assert (Wo : word (fw F64) 0x4330000000000000) by (unfold word; cbn; lia).
  assert (V0 : val F64 0x4330000000000000 = IZR (2 ^ 52)).
  { rewrite (val_sgnr Wo Fy). change (fsign (fw F64) 4841369599423283200) with false. cbn [sgnr]. change (fmag (fw F64) 4841369599423283200) with 4841369599423283200%Z. unfold mval.
    change (msig F64 4841369599423283200) with (2 ^ 52)%Z. change (mex F64 4841369599423283200) with 0%Z. cbn [bpow]. ring. }
  assert (V1 : val F64 c = IZR (2 ^ 52 + 1)).
  { rewrite (val_sgnr Wc Fc). change (fsign (fw F64) c) with false. cbn [sgnr]. change (fmag (fw F64) c) with c. unfold mval. change (msig F64 c) with (2 ^ 52 + 1)%Z. change (mex F64 c) with 0%Z. cbn [bpow]. ring. }
  rewrite V0, V1, near_int in Vy. apply eq_IZR in Vy. discriminate.
Qed.
Print Assumptions C36_rint_double_refuted.
(** irint<int> of a float vector, and lrint/llrint *)
Theorem C36_irint : forall nn X J x, xty_ok X -> is_int (xT X) = false -> esz (xT X) = 4 -> int_vec_of X J -> shaped X x ->
  int_each 32 X J x (x_irint32 X nn x) (fun x n => isfin F32 x = true -> fits 32 (ZnearestE (val F32 x)) -> n = ZnearestE (val F32 x)).
Proof.
  intros nn X J x HX HF E HJ Hx. apply (@int_reg X HX J x (cvtps_epi32 nn) (irint1 nn)); auto. { intros. now apply k_irint_lane. }
  intros v Hv Fv R. unfold irint1. rewrite fto_int_ok; auto; [|lia]. now apply sgn_wrap.
Qed.
Print Assumptions C36_irint.
Example C36_irint_case : int_vec_of f32x5 i32x5 /\ x_irint32 f32x5 nans0 [[0x40200000; 0xbf000000; 0xc0600000; 0x3fc00000]; [0x3f000000; 0; 0; 0]]%Z = Ok [[2; 0; 2 ^ 32 - 4; 2]; [0; 0; 0; 0]]%Z.
Proof. split; [|vm_compute; reflexivity]. repeat split. now left. Qed.
(** lrint/llrint of double: right for |x| <= 2^51 *)
Theorem C36_lrint_double_partial : forall nn X J x, xty_ok X -> is_int (xT X) = false -> esz (xT X) = 8 -> long_vec_of X J -> shaped X x ->
  let P := fun x n => isfin F64 x = true -> (Rabs (val F64 x) <= IZR (2 ^ 51))%R -> n = ZnearestE (val F64 x) in
  int_each 64 X J x (x_lrint X J nn x) P /\ int_each 64 X J x (x_llrint X J nn x) P.
Proof.
  intros nn X J x HX HF E8 HL Hx P. cut (int_each 64 X J x (x_lrint X J nn x) P). { intros H. split; exact H. } subst P.
  destruct (lrint_double HX HF nn E8 HL Hx) as (d & A & B & C). exists d. split; auto. split; auto. intros i xi Hi.
  exists (lrint1 (X := X) nn xi). split. { rewrite C. now apply map_nth_error. }
  intros Fx R. unfold lrint1. rewrite E8. cbn [Nat.eqb]. assert (Wx : word 64 xi). { pose proof (el_word _ Hx Hi) as W. unfold xw, ew in W. rewrite E8 in W. exact W. }
  apply Rabs_le_inv in R. rewrite f64_i64l_ok; auto. apply sgn_wrap; [lia|]. assert (- 2 ^ 51 <= ZnearestE (val F64 xi) <= 2 ^ 51)%Z; [|lia].
  pose proof (Zrnd_le ZnearestE (IZR (- 2 ^ 51)) (val F64 xi)) as N1. pose proof (Zrnd_le ZnearestE (val F64 xi) (IZR (2 ^ 51))) as N2. rewrite near_int in N1, N2. split; [apply N1|apply N2]; [change (- 2 ^ 51)%Z with (Z.opp (2 ^ 51)); rewrite opp_IZR|]; lra.
Qed.
Print Assumptions C36_lrint_double_partial.
Example C36_lrint_double_case : long_vec_of (d2 sse4) {| xc := sse4; xT := {| esz := 8; ek := KInt true |}; xvs := 16; xN := 2 |} /\
  x_lrint (d2 sse4) {| xc := sse4; xT := {| esz := 8; ek := KInt true |}; xvs := 16; xN := 2 |} nans0 [[0x4004000000000000; 0xc00c000000000000]]%Z = Ok [[2; 2 ^ 64 - 4]]%Z.   (* 2.5, -3.5 *)
Proof. split; [|vm_compute; reflexivity]. repeat split. now left. Qed.
(** beyond 2^51 the result is wrong: lrint(2^53) = 2^51 *)
Theorem C36_lrint_double_refuted : forall nn X J, xty_ok X -> is_int (xT X) = false -> esz (xT X) = 8 -> long_vec_of X J ->
  exists x, shaped X x /\ int_each 64 X J x (x_lrint X J nn x) (fun x n => isfin F64 x = true /\ fits 64 (ZnearestE (val F64 x)) /\ n <> ZnearestE (val F64 x)).
Proof.
  intros nn X J HX HF E8 HL. assert (Ef : xf X = F64) by (destruct (xT_float HX HF) as [(Q & _) | (_ & Q & _)]; [congruence|auto]).
  set (c := 0x4340000000000000%Z). assert (Wc : word (fw F64) c) by (unfold word, c; cbn; lia). exists (repeat (v_fill X c) (dsz X)). destruct (@fill_ok X HX HF c) as [S A]. { rewrite Ef. exact Wc. }
  split; auto. destruct (lrint_double HX HF nn E8 HL S) as (d & B1 & B2 & B3). exists d. split; auto. split; auto. intros i xi Hi.
  exists (lrint1 (X := X) nn xi). split. { rewrite B3. now apply map_nth_error. } rewrite (A i xi Hi).
  assert (Fc : isfin F64 c = true) by (vm_compute; reflexivity). split; auto.
  assert (V : val F64 c = IZR (2 ^ 53)).
  { rewrite (val_sgnr Wc Fc). change (fsign (fw F64) c) with false. cbn [sgnr]. change (fmag (fw F64) c) with c. unfold mval. change (msig F64 c) with (2 ^ 52)%Z. change (mex F64 c) with 1%Z. change (bpow radix2 1) with 2%R. rewrite <- mult_IZR. reflexivity. }
  rewrite V, near_int. split; [unfold fits; lia|]. unfold lrint1. rewrite E8. clear. destruct nn. vm_compute. discriminate.
Qed.
Print Assumptions C36_lrint_double_refuted.
(** lrint/llrint of float: every register of x is widened into two result registers; when the last register of x is at most half used
    the second one does not exist, and the function writes outside the result. *)
Theorem C36_lrint_float_partial : forall nn X J x, xty_ok X -> xty_ok J -> is_int (xT X) = false -> esz (xT X) = 4 -> long_vec_of X J -> xvs J = xvs X -> shaped X x ->
  let P := fun x n => isfin F32 x = true -> fits 32 (ZnearestE (val F32 x)) -> n = ZnearestE (val F32 x) in
  let ok := xN X mod ext X = 0 \/ ext X < 2 * (xN X mod ext X) in
  (ok -> int_each 64 X J x (x_lrint X J nn x) P /\ int_each 64 X J x (x_llrint X J nn x) P) /\
  (~ ok -> x_lrint X J nn x = UB /\ x_llrint X J nn x = UB).
Proof.
  intros nn X J x HX HJ HF E HL EV Hx P ok. destruct (exts HX E HL EV) as [E1 _]. pose proof HL as (_ & EN & _).
  pose proof (dszs_iff HJ HF E1 EN) as D. assert (D' : dsz J = 2 * dsz X <-> ok) by (rewrite D; unfold ok; rewrite E1; lia). clear D.
  pose proof (lrint_float HX HJ HF nn E HL EV Hx) as LF. split; intros O.
  - apply D' in O. rewrite O, Nat.eqb_refl in LF. cut (int_each 64 X J x (x_lrint X J nn x) P). { intros H. split; exact H. } subst P. destruct LF as (d & A & B & C).
    exists d. split; auto. split; auto. intros i xi Hi. exists (lrint1 (X := X) nn xi). split. { rewrite C. now apply map_nth_error. }
    intros Fx R. unfold lrint1. rewrite E. cbn [Nat.eqb]. assert (Wx : word 32 xi). { pose proof (el_word _ Hx Hi) as W. unfold xw, ew in W. rewrite E in W. exact W. }
    rewrite fto_int_ok; auto; [|lia]. cbn [round_mode]. set (n := ZnearestE (val F32 xi)) in *. clearbody n. unfold fits in R. unfold sext32. rewrite (sgn_wrap 32) by (cbn; lia). apply sgn_wrap; [lia|]. cbn in R |- *. lia.
  - replace (dsz J =? 2 * dsz X) with false in LF. 2:{ symmetry. apply Nat.eqb_neq. intros Q. apply O, D', Q. } split; exact LF.
Qed.
Print Assumptions C36_lrint_float_partial.
Example C36_lrint_float_case : xty_ok f32x7 /\ xty_ok i64x7 /\ long_vec_of f32x7 i64x7 /\ xN f32x7 mod ext f32x7 = 3 /\
  x_lrint f32x7 i64x7 nans0 [[0x40200000; 0xbf000000; 0xc0600000; 0x3fc00000]; [0x3f000000; 0; 0; 0]]%Z = Ok [[2; 0]; [2 ^ 64 - 4; 2]; [0; 0]; [0; 0]]%Z.
Proof. split; [xok|]. split; [xok|]. split; [|split; [reflexivity|vm_compute; reflexivity]]. repeat split. now left. Qed.
(** simd<float, 5> with 128-bit vectors: out of bounds *)
Definition i64x5 : xty := {| xc := sse4; xT := {| esz := 8; ek := KInt true |}; xvs := 16; xN := 5 |}.
Theorem C36_lrint_float_ub_refuted : forall nn x, shaped f32x5 x -> long_vec_of f32x5 i64x5 /\ x_lrint f32x5 i64x5 nn x = UB.
Proof.
  intros nn x Hx. assert (HL : long_vec_of f32x5 i64x5) by (repeat split; now left). split; auto.
  assert (H1 : xty_ok f32x5) by xok. assert (H2 : xty_ok i64x5) by xok. refine (proj1 (proj2 (C36_lrint_float_partial nn H1 H2 eq_refl eq_refl HL eq_refl Hx) _)). cbn. lia.
Qed.
Print Assumptions C36_lrint_float_ub_refuted.
(** float values beyond the int32 range, although they fit long: the result is -2^31 *)
Theorem C36_lrint_float_range_refuted : forall nn X J x, xty_ok X -> xty_ok J -> is_int (xT X) = false -> esz (xT X) = 4 -> long_vec_of X J -> xvs J = xvs X -> shaped X x ->
  xN X mod ext X = 0 \/ ext X < 2 * (xN X mod ext X) ->
  int_each 64 X J x (x_lrint X J nn x) (fun x n => isfin F32 x = true -> ~ fits 32 (ZnearestE (val F32 x)) -> n = (- 2 ^ 31)%Z /\ n <> ZnearestE (val F32 x)).
Proof.
  intros nn X J x HX HJ HF E HL EV Hx O. destruct (exts HX E HL EV) as [E1 _]. pose proof HL as (_ & EN & _).
  pose proof (dszs_iff HJ HF E1 EN) as D. assert (D' : dsz J = 2 * dsz X) by (apply D; lia). pose proof (lrint_float HX HJ HF nn E HL EV Hx) as LF. rewrite D', Nat.eqb_refl in LF.
  destruct LF as (d & A & B & C). exists d. split; auto. split; auto. intros i xi Hi. exists (lrint1 (X := X) nn xi). split. { rewrite C. now apply map_nth_error. }
  intros Fx R. unfold lrint1. rewrite E. cbn [Nat.eqb]. assert (Wx : word 32 xi). { pose proof (el_word _ Hx Hi) as W. unfold xw, ew in W. rewrite E in W. exact W. }
  rewrite fto_int_bad; auto. change (sgn 64 (sext32 (2 ^ (32 - 1)))) with (- 2 ^ 31)%Z. split; auto. intros Q. apply R. rewrite <- Q. unfold fits. cbn. lia.
Qed.
Print Assumptions C36_lrint_float_range_refuted.
Example C36_lrint_float_range_case : x_lrint f32x7 i64x7 nans0 [[0x4f000000; 0x50000000; 0; 0]; [0; 0; 0; 0]]%Z = Ok [[2 ^ 64 - 2 ^ 31; 2 ^ 64 - 2 ^ 31]; [0; 0]; [0; 0]; [0; 0]]%Z.   (* 2^31, 2^33 *)
Proof. vm_compute. reflexivity. Qed.

(** *** C37 *)
(** round with SSE4.1 (128-bit vectors) and for 256-bit double vectors: all bit patterns *)
Theorem C37_round_native_partial : forall nn X x, xty_ok X -> is_int (xT X) = false -> shaped X x ->
  is256 X = false /\ sse41 (xc X) = true \/ is256 X = true /\ esz (xT X) = 8 ->
  each1 X x (x_round X nn x) (rounds_to (xf X) away).
Proof.
  intros nn X x HX HF Hx C. apply x_round_each; auto. intros v Hv. unfold round1. cbv zeta. rewrite (xw_fw HX HF).
  destruct C as [[-> ->] | [-> ->]]; cbn [Nat.eqb]; exact (round_native nn Hv).
Qed.
Print Assumptions C37_round_native_partial.
Example C37_round_native_case : xty_ok (d4 avx1) /\ x_round (d4 avx1) nans0 [[0x4004000000000000; 0xbfe0000000000000; 0x3fdfffffffffffff; 0x7ff0000000000000]]%Z =
  Ok [[0x4008000000000000; 0xbff0000000000000; 0; 0x7ff0000000000000]]%Z.   (* 2.5, -0.5, pred(0.5), inf *)
Proof. split; [xok|vm_compute; reflexivity]. Qed.
(** 256-bit float vectors: the result is a zero for every input *)
Lemma land_half f x : word (fw f) x -> let z := Z.land x (Z.lor (sbit f (fsign (fw f) x)) (pred_half (fw f))) in word (fw f) z /\ (fmag (fw f) z <= pred_half (fw f))%Z.
Proof.
  intros Hx z. assert (Wz : word (fw f) z). { apply word_land; [destruct f; cbn; lia|exact Hx|]. apply word_lor; [destruct f; cbn; lia| |]; unfold sbit, word; destruct f, (fsign _ x); cbn; lia. }
  split; auto. unfold fmag. rewrite <- Z.land_ones by (destruct f; cbn; lia).
  assert (E : Z.land z (Z.ones (fw f - 1)) = Z.land x (pred_half (fw f))).
  { unfold z. rewrite <- Z.land_assoc. f_equal. rewrite Z.land_lor_distr_l. unfold sbit. destruct f, (fsign _ x); reflexivity. }
  rewrite E. assert (P : (0 <= pred_half (fw f))%Z) by (destruct f; cbn; lia). revert P. generalize (pred_half (fw f)). intros q P. rewrite Z.land_comm. apply Z.ldiff_le; [lia|].
  apply Z.bits_inj'. intros n Hn. rewrite Z.ldiff_spec, Z.land_spec, Z.bits_0. destruct (Z.testbit q n), (Z.testbit x n); reflexivity.
Qed.
Theorem C37_round_float256_refuted : forall nn X x, xty_ok X -> is_int (xT X) = false -> shaped X x -> is256 X = true -> esz (xT X) = 4 ->
  each1 X x (x_round X nn x) (fun x y => isfin F32 y = true /\ val F32 y = 0%R).
Proof.
  intros nn X x HX HF Hx E2 E4. assert (Ef : xf X = F32) by (destruct (xT_float HX HF) as [(_ & Q & _) | (Q & _)]; [auto|congruence]).
  apply x_round_each; auto. intros v Hv. unfold round1. cbv zeta. rewrite E2, E4, (xw_fw HX HF), Ef in *. cbn [Nat.eqb]. destruct (land_half F32 Hv) as [Wz Mz]. set (z := Z.land _ _) in *.
  assert (Fz : isfin F32 z = true). { rewrite (isfin_spec Wz). change (finf (fw F32)) with 2139095040%Z. change (pred_half (fw F32)) with 1056964607%Z in Mz. lia. }
  pose proof (fround_ok nn mode_ZR Wz) as R. unfold rounds_to in R. rewrite (fin_nan _ Fz), Fz in R. destruct R as (Fy & Vy & _). split; auto. rewrite Vy. cbn [round_mode].
  destruct (pred_half_ok (f := F32)) as (Wh & Fh & Vh & _).
  assert (B : (Rabs (val F32 z) < 1)%R).
  { rewrite (abs_val F32 Wz Fz). apply Rle_lt_trans with (mval F32 (pred_half (fw F32))). { apply mval_le; auto; [apply fin_word; auto|cbn; lia]. }
    assert (Q : Rabs (val F32 (pred_half (fw F32))) = mval F32 (pred_half (fw F32))) by (rewrite (abs_val F32 Wh Fh); reflexivity). rewrite <- Q, Vh.
    change (bpow radix2 (-1)) with (/ 2)%R. pose proof (bpow_gt_0 radix2 (- (prec F32 + 1))). assert (bpow radix2 (- (prec F32 + 1)) <= / 2)%R. { change (/ 2)%R with (bpow radix2 (-1)). apply bpow_le. cbn. lia. }
    rewrite Rabs_pos_eq; lra. }
  f_equal. destruct (Rle_lt_dec 0 (val F32 z)) as [P|P]; [rewrite Rabs_pos_eq in B by auto; rewrite Ztrunc_floor by auto; apply Zfloor_imp; cbn; lra|]. rewrite Rabs_left in B by auto. rewrite Ztrunc_ceil by lra. apply Zceil_imp. cbn. lra.
Qed.
Print Assumptions C37_round_float256_refuted.
Example C37_round_float256_case : xty_ok (f32x8 haswell) /\ x_round (f32x8 haswell) nans0 [[0x3f800000; 0x40400000; 0xc0400000; 0; 0; 0; 0; 0x7f800000]]%Z = Ok [[0; 0; 0x80000000; 0; 0; 0; 0; 0]]%Z.   (* 1, 3, -3, inf *)
Proof. split; [xok|vm_compute; reflexivity]. Qed.
(** without SSE4.1: right when the integer part fits int32 and x is not halfway between two integers; halfway cases go toward zero *)
Theorem C37_round_sse2_partial : forall nn X x, xty_ok X -> is_int (xT X) = false -> shaped X x -> is256 X = false -> sse41 (xc X) = false ->
  each1 X x (x_round X nn x) (fun x y => isfin (xf X) x = true -> fits 32 (Ztrunc (val (xf X) x)) ->
    (~ half_int (val (xf X) x) -> rounds_val (xf X) away x y) /\ (half_int (val (xf X) x) -> rounds_val (xf X) Ztrunc x y /\ ~ rounds_val (xf X) away x y)).
Proof.
  intros nn X x HX HF Hx E2 E4. apply x_round_each; auto. intros v Hv Fv R. unfold round1. cbv zeta. rewrite E2, E4, (xw_fw HX HF). assert (T : forall v, tx1 X nn v = txf (f := xf X) nn v) by reflexivity. rewrite !T. clear T. pose proof (round_sse2 nn Hv (conj Fv R)) as Q. set (y := fadd _ _ _ _) in *. clearbody y. destruct Q as [A B].
  unfold rounds_val. split; intros H; [split; [exact A|]; rewrite <- (to_zero_away H); exact B|]. destruct (to_zero_half H) as [T N]. rewrite T in B. split; [split; [exact A|exact B]|]. intros [_ C].
  apply N. apply eq_IZR. rewrite <- C. exact B.
Qed.
Print Assumptions C37_round_sse2_partial.
Example C37_round_sse2_case : x_round (d2 sse2) nans0 [[0xc004000000000000; 0x4006000000000000]]%Z = Ok [[0xc000000000000000; 0x4008000000000000]]%Z.   (* -2.5 gives -2, 2.75 gives 3 *)
Proof. vm_compute. reflexivity. Qed.
(** iround<int> of a float vector: the same, on every build *)
Theorem C37_iround_partial : forall nn X J x, xty_ok X -> is_int (xT X) = false -> esz (xT X) = 4 -> int_vec_of X J -> shaped X x ->
  int_each 32 X J x (x_iround32 X nn x) (fun x n => isfin F32 x = true -> fits 32 (Ztrunc (val F32 x)) -> fits 32 (away (val F32 x)) ->
    (~ half_int (val F32 x) -> n = away (val F32 x)) /\ (half_int (val F32 x) -> n = Ztrunc (val F32 x) /\ n <> away (val F32 x))).
Proof.
  intros nn X J x HX HF E HJ Hx. apply (@int_reg X HX J x (k_iround32 X nn) (iround1 nn)); auto. { intros. now apply k_iround_lane. }
  intros v Hv Fv R Ra. assert (Q : sgn 32 (iround1 nn v) = to_zero (val F32 v) \/ ~ fits 32 (to_zero (val F32 v))).
  { destruct (round_parts (f := F32) nn Hv (conj Fv R)) as (Wr & [Fr Rr] & S & _). unfold iround1. cbv zeta. rewrite (@fto_int_ok nn F32 mode_ZR 32 v) by (auto; lia). cbn [round_mode].
    replace (fof_int F32 (sgn 32 (wrap 32 (Ztrunc (val F32 v))))) with (txf (f := F32) nn v). 2:{ unfold txf. rewrite (@fto_int_ok nn F32 mode_ZR 32 v) by (auto; lia). reflexivity. }
    cbn [fw] in *. set (r := fmul nn F32 _ _) in *. rewrite (@fto_int_ok nn F32 mode_ZR 32 r) by (auto; lia). cbn [round_mode].
    assert (EW : wrap 32 (wrap 32 (Ztrunc (val F32 v)) + wrap 32 (Ztrunc (val F32 r))) = wrap 32 (to_zero (val F32 v))) by (rewrite <- S; unfold wrap; rewrite <- Zplus_mod; reflexivity).
    rewrite EW. set (t := to_zero (val F32 v)). clearbody t. unfold fits. destruct (Z_le_dec (- 2 ^ (32 - 1)) t), (Z_lt_dec t (2 ^ (32 - 1))); [left; apply sgn_wrap; lia|right; lia|right; lia|right; lia]. }
  assert (T : half_int (val F32 v) -> to_zero (val F32 v) = Ztrunc (val F32 v) /\ away (val F32 v) <> Ztrunc (val F32 v)) by apply to_zero_half.
  split; intros H.
  - rewrite <- (to_zero_away H) in *. destruct Q as [Q|Q]; [exact Q|contradiction].
  - destruct (T H) as [T1 T2]. rewrite T1 in Q. destruct Q as [Q|Q]; [|contradiction]. rewrite Q. auto.
Qed.
Print Assumptions C37_iround_partial.
Example C37_iround_case : int_vec_of f32x5 i32x5 /\ x_iround32 f32x5 nans0 [[0x40200000; 0x40300000; 0xc0600000; 0xbf800000]; [0x3f000000; 0; 0; 0]]%Z = Ok [[2; 3; 2 ^ 32 - 3; 2 ^ 32 - 1]; [0; 0; 0; 0]]%Z.
Proof. split; [|vm_compute; reflexivity]. repeat split. now left. Qed.
(** lround and llround call rint: right unless x is halfway between an even and the next integer away from zero *)
Lemma near_away r : (~ half_int r -> ZnearestE r = away r) /\ (half_int r -> Z.even (Ztrunc r) = true -> ZnearestE r = Ztrunc r /\ ZnearestE r <> away r).
Proof.
  assert (Q : forall r, (0 <= r)%R -> (~ half_int r -> ZnearestE r = away r) /\ (half_int r -> Z.even (Ztrunc r) = true -> ZnearestE r = Ztrunc r /\ ZnearestE r <> away r)).
  { clear. intros r Hr. rewrite (Ztrunc_floor r Hr). unfold Znearest. pose proof (Zfloor_lb r) as A. pose proof (Zfloor_ub r) as B. set (n := Zfloor r) in *. split.
    - intros N. symmetry. apply spec_away. rewrite Rle_bool_true by auto. destruct (Rcompare_spec (r - IZR n) (/ 2)) as [C|C|C].
      + lra.
      + exfalso. apply N. exists n. lra.
      + assert (Zceil r = n + 1)%Z as ->. { apply Zceil_floor_neq. fold n. lra. } rewrite plus_IZR. lra.
    - intros [m Hm] Ev. assert (n = m). { apply Zfloor_imp. rewrite plus_IZR. lra. } subst m. rewrite Rcompare_Eq by lra. rewrite Ev. cbn [negb]. split; auto. intros E. symmetry in E. apply spec_away in E. rewrite Rle_bool_true in E by auto. lra. }
  destruct (Rle_lt_dec 0 r) as [P|P]; auto. destruct (Q (- r)%R ltac:(lra)) as [Q1 Q2]. clear Q. rewrite near_opp, away_opp, Ztrunc_opp, Z.even_opp in *.
  assert (H : half_int (- r) <-> half_int r). { split; intros [n H]; exists (- n - 1)%Z; rewrite minus_IZR, opp_IZR; lra. } rewrite H in *. split; [intros N; specialize (Q1 N); lia|]. intros N E. specialize (Q2 N E). lia.
Qed.
Theorem C37_lround_double_partial : forall nn X J x, xty_ok X -> is_int (xT X) = false -> esz (xT X) = 8 -> long_vec_of X J -> shaped X x ->
  let P := fun x n => isfin F64 x = true -> (Rabs (val F64 x) <= IZR (2 ^ 51))%R ->
    (~ half_int (val F64 x) -> n = away (val F64 x)) /\ (half_int (val F64 x) -> Z.even (Ztrunc (val F64 x)) = true -> n = Ztrunc (val F64 x) /\ n <> away (val F64 x)) in
  int_each 64 X J x (x_lround X J nn x) P /\ int_each 64 X J x (x_llround X J nn x) P.
Proof.
  intros nn X J x HX HF E8 HL Hx P. cut (int_each 64 X J x (x_lround X J nn x) P). { intros H. split; exact H. } subst P.
  destruct (C36_lrint_double_partial nn HX HF E8 HL Hx) as [(d & A & B & C) _]. exists d. split; auto. split; auto. intros i xi Hi. destruct (C i xi Hi) as (y & D1 & D2). exists y. split; auto.
  intros Fx R. rewrite (D2 Fx R). apply near_away.
Qed.
Print Assumptions C37_lround_double_partial.
Theorem C37_lround_float_partial : forall nn X J x, xty_ok X -> xty_ok J -> is_int (xT X) = false -> esz (xT X) = 4 -> long_vec_of X J -> xvs J = xvs X -> shaped X x ->
  xN X mod ext X = 0 \/ ext X < 2 * (xN X mod ext X) ->
  let P := fun x n => isfin F32 x = true -> fits 32 (ZnearestE (val F32 x)) ->
    (~ half_int (val F32 x) -> n = away (val F32 x)) /\ (half_int (val F32 x) -> Z.even (Ztrunc (val F32 x)) = true -> n = Ztrunc (val F32 x) /\ n <> away (val F32 x)) in
  int_each 64 X J x (x_lround X J nn x) P /\ int_each 64 X J x (x_llround X J nn x) P.
Proof.
  intros nn X J x HX HJ HF E HL EV Hx O P. cut (int_each 64 X J x (x_lround X J nn x) P). { intros H. split; exact H. } subst P.
  destruct (C36_lrint_float_partial nn HX HJ HF E HL EV Hx) as [Q _]. destruct (Q O) as [(d & A & B & C) _]. exists d. split; auto. split; auto. intros i xi Hi. destruct (C i xi Hi) as (y & D1 & D2). exists y. split; auto.
  intros Fx R. rewrite (D2 Fx R). apply near_away.
Qed.
Print Assumptions C37_lround_float_partial.
Example C37_lround_case : x_lround f32x7 i64x7 nans0 [[0x3f000000; 0x3fc00000; 0xc0200000; 0x3f400000]; [0; 0; 0; 0]]%Z = Ok [[0; 2]; [2 ^ 64 - 2; 1]; [0; 0]; [0; 0]]%Z.   (* 0.5, 1.5, -2.5, 0.75 *)
Proof. vm_compute. reflexivity. Qed.
