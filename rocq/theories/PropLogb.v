(** ilogb and logb (C32).

    [xf X] is the IEEE format of the element type, [val f x] the real value of the bit pattern x, [isfin]/[isnanb] the classification;
    il0 and iln are FP_ILOGB0 and FP_ILOGBNAN (both INT_MIN with glibc). *)
From Coq Require Import ZifyBool ZifyNat Reals Lra.
From Flocq Require Import Core IEEE754.BinarySingleNaN IEEE754.Binary.
From Verif Require Import Base Cxx Spec X86Vec X86 X86Lemmas X86Proofs X86Masks X86Ops X86Shift Fp FpLemmas FpOps FKern FMath FMathProofs FNext PropX86 PropFloat
  FLane FManip FManipLanes FFields FScalbn FRoute FRouteProofs PropManip Cvt CvtProofs Logb LogbProofs.
Set Implicit Arguments.
Local Open Scope nat_scope.

(** n is the floor of log2|x| *)
Definition floor_log2 (f : fmt) (x n : Z) : Prop := (bpow radix2 n <= Rabs (val f x) < bpow radix2 (n + 1))%R.
Definition ilogb_ok (f : fmt) (il0 iln x e : Z) : Prop :=
  if isnanb f x then e = iln
  else if isfin f x then if Req_bool (val f x) 0 then e = il0 else floor_log2 f x e
  else e = (2 ^ 31 - 1)%Z.
Definition logb_ok (f : fmt) (x y : Z) : Prop :=
  if isnanb f x then isnanb f y = true
  else if isfin f x then if Req_bool (val f x) 0 then y = infs f true else isfin f y = true /\ exists n, val f y = IZR n /\ floor_log2 f x n
  else y = infs f false.
Definition is_int32 (n : Z) : Prop := (- 2 ^ 31 <= n < 2 ^ 31)%Z.
(** ilogb(x) is defined and P holds between every element of x and the corresponding int *)
Definition ilogb_each (X J : xty) (x : list vec) (r : res (list vec)) (P : Z -> Z -> Prop) : Prop :=
  exists e, r = Ok e /\ shaped J e /\
    forall i xi, nth_error (elems X x) i = Some xi -> exists ei, nth_error (elems J e) i = Some ei /\ P xi (sgn 32 ei).

Section Elem.
Context {X : xty} (nn : nans) (HX : xty_ok X) (HF : is_int (xT X) = false).
Local Notation w := (xw X).
Local Notation f := (xf X).
Lemma feq_mag_zero x : word (fw f) x -> feq (fw f) (fmag (fw f) x) 0 = (fmag (fw f) x =? 0)%Z.
Proof.
  intros Hx. unfold feq. rewrite fnan_mag, fkey_mag. replace (fkey (fw f) 0) with 0%Z by (destruct f; reflexivity). replace (fnan (fw f) 0) with false by (destruct f; reflexivity).
  cbn [negb andb]. destruct (fnan (fw f) x) eqn:N; auto. cbn [negb andb]. unfold fnan in N. assert (0 < finf (fw f))%Z by (destruct f; reflexivity). lia.
Qed.
Lemma feq_mag_inf x : word (fw f) x -> feq (fw f) (fmag (fw f) x) (finf (fw f)) = (fmag (fw f) x =? finf (fw f))%Z.
Proof.
  intros Hx. unfold feq. rewrite fnan_mag, fkey_mag, fkey_inf, fnan_inf. cbn [negb andb]. destruct (fnan (fw f) x) eqn:N; auto. cbn [negb andb]. unfold fnan in N. lia.
Qed.
(** the value computed for a finite non-zero number *)
Lemma ev1_ok x : word (fw f) x -> isfin f x = true -> fmag (fw f) x <> 0%Z -> isnormb f x = true \/ esz (xT X) = 4 \/ i64_good (X := X) ->
  floor_log2 f x (sgn w (ev1 X nn (fmag (fw f) x))).
Proof.
  intros Hx Fx Nz C. unfold floor_log2. rewrite (abs_val f Hx Fx). pose proof (fin_word f Hx) as P0. set (m := fmag (fw f) x) in *.
  destruct (Z.eq_dec (mexp f m) 0) as [E|E].
  - destruct C as [C|C]. { destruct (norm_exp_field f Hx C) as (_ & _ & Q). exfalso. apply Q. exact E. }
    rewrite ev1_subnormal; auto; [|lia|]. { apply mval_subnormal; auto; lia. }
    destruct C as [C|C]; [left|right]; auto. unfold xw, ew. rewrite C. reflexivity.
  - assert (mexp f m < 2 ^ eb f)%Z. { pose proof (mexp_range (f := f) x). unfold m. lia. } pose proof (mexp_range (f := f) x). fold m in H0.
    rewrite ev1_normal by (auto; lia). apply mval_normal; lia.
Qed.
Lemma floor_range x n : word (fw f) x -> isfin f x = true -> fmag (fw f) x <> 0%Z -> floor_log2 f x n -> (emin f <= n < emax f)%Z.
Proof.
  intros Hx Fx Nz [A B]. split.
  - assert (emin f < n + 1)%Z; [|lia]. apply (lt_bpow radix2). eapply Rle_lt_trans; [|exact B]. rewrite (abs_val f Hx Fx). apply mval_ge_emin. pose proof (fin_word f Hx). lia.
  - apply (lt_bpow radix2). eapply Rle_lt_trans; [exact A|]. apply val_lt_emax.
Qed.
Lemma ev1_word m : word w (ev1 X nn m).
Proof. unfold ev1. apply Z.mod_pos_bound. apply pow2_pos. destruct (@w_cases X HX HF) as [-> | ->]; lia. Qed.
(** the word is the two's complement of the result *)
Lemma ilogb_elem il0 iln x : is_int32 il0 -> is_int32 iln -> word w x ->
  let e := sgn 32 (lo32 (ilogb1 X nn il0 iln x)) in
  (isnanb f x = true -> e = iln) /\
  (isnanb f x = false -> isfin f x = false -> e = if esz (xT X) =? 4 then (2 ^ 31 - 1)%Z else (-1)%Z) /\
  (isfin f x = true -> val f x = 0%R -> e = il0) /\
  (isfin f x = true -> val f x <> 0%R -> isnormb f x = true \/ esz (xT X) = 4 \/ i64_good (X := X) -> floor_log2 f x e).
Proof.
  intros H0 Hn Hx. rewrite (xw_fw HX HF) in Hx. cbv zeta.
  assert (Q : forall c, is_int32 c -> sgn 32 (lo32 (wrap (fw f) c)) = c).
  { intros c Hc. unfold is_int32 in Hc. assert (32 <= fw f)%Z by (destruct f; cbn; lia). assert (2 ^ 31 <= 2 ^ (fw f - 1))%Z by (apply Z.pow_le_mono_r; lia).
    assert (S : sgn (fw f) (wrap (fw f) c) = c) by (apply sgn_wrap; lia). rewrite (@sgn_lo32 (fw f) _ H). { exact S. } { apply wrap_word; lia. } rewrite S. exact Hc. }
  unfold ilogb1. rewrite (xw_fw HX HF), (feq_mag_zero Hx), (feq_mag_inf Hx), orb_diag.
  destruct (fclass Hx) as [(N & Fx) | [(N & I' & Fx) | (N & I' & Fx)]]; rewrite (isnan_spec Hx), N, Fx.
  - split; auto. repeat split; intros; congruence.
  - split; [intros; congruence|]. split; [|split; intros; congruence]. intros _ _. rewrite I', Z.eqb_refl.
    destruct (xT_float HX HF) as [(-> & -> & _) | (-> & -> & _)]; reflexivity.
  - split; [intros; congruence|]. split; [intros; congruence|]. replace (fmag (fw f) x =? finf (fw f))%Z with false by lia. split; [intros _ V|intros _ V C].
    + apply (val_zero f Hx Fx) in V. rewrite V. cbn [Z.eqb]. auto.
    + assert (Nz : fmag (fw f) x <> 0%Z) by (intros E; apply V; apply (val_zero f Hx Fx); auto). replace (fmag (fw f) x =? 0)%Z with false by lia.
      pose proof (ev1_ok Hx Fx Nz C) as R. pose proof (floor_range Hx Fx Nz R) as B.
      rewrite sgn_lo32 with (W := w); auto.
      * destruct (@w_cases X HX HF) as [-> | ->]; lia.
      * apply ev1_word.
      * revert B. set (q := sgn w _). clearbody q. destruct f; unfold emin, emax, prec; cbn; lia.
Qed.

Lemma cvl_ok v : word w v -> esz (xT X) = 4 \/ i64_good (X := X) -> nearest_float f (sgn w v) (cvl X nn v).
Proof.
  intros Hv G. unfold cvl. destruct (xT_float HX HF) as [(E & -> & Ew) | (E & -> & Ew)]; rewrite E, Ew in *; cbn [Nat.eqb].
  - apply fof_int_ok. pose proof (@sgn_range 32 v ltac:(lia) Hv). lia.
  - destruct G as [G|G]; [lia|]. rewrite (proj2 (i64_goodb_ok X) G). now apply i64l_ok.
Qed.
(** SSE4.1 (128-bit) and AVX without AVX2 (256-bit): the conversion is right for small non-negative integers, wrong for small negative ones *)
Lemma cvl_bad v : esz (xT X) = 8 -> ~ i64_good (X := X) -> word 64 v -> (- 2 ^ 16 <= sgn 64 v < 2 ^ 16)%Z ->
  nearest_float F64 (if (sgn 64 v <? 0)%Z then 2 ^ 49 - 2 ^ 16 + sgn 64 v else sgn 64 v)%Z (cvl X nn v).
Proof.
  intros E G Hv R. unfold cvl. rewrite E. cbn [Nat.eqb]. replace (i64_goodb X) with false by (symmetry; apply not_true_iff_false; intros Q; apply G; now apply i64_goodb_ok).
  pose proof (i64l_sse4_val nn Hv) as N. set (y := i64l_sse4 nn v) in *. clearbody y.
  replace (v mod 2 ^ 48 + 2 ^ 16 * wrap 32 (sgn 32 (v mod 2 ^ 32) / 2 ^ 16))%Z with (if (sgn 64 v <? 0)%Z then 2 ^ 49 - 2 ^ 16 + sgn 64 v else sgn 64 v)%Z in N; auto.
  unfold word in Hv. clear - R Hv. unfold sgn in *. change (2 ^ (64 - 1))%Z with (2 ^ 63)%Z in *. change (2 ^ (32 - 1))%Z with (2 ^ 31)%Z. destruct (Z.ltb_spec v (2 ^ 63)) as [P|P].
  - replace (v <? 0)%Z with false by lia. rewrite !Z.mod_small by lia. replace (v <? 2 ^ 31)%Z with true by lia. rewrite Z.div_small by lia. unfold wrap. rewrite Z.mod_0_l; lia.
  - replace (v - 2 ^ 64 <? 0)%Z with true by lia.
    replace (v mod 2 ^ 48)%Z with (v - 2 ^ 64 + 2 ^ 48)%Z by (apply (Z.mod_unique _ _ (2 ^ 16 - 1)%Z); lia).
    replace (v mod 2 ^ 32)%Z with (v - 2 ^ 64 + 2 ^ 32)%Z by (apply (Z.mod_unique _ _ (2 ^ 32 - 1)%Z); lia).
    replace (v - 2 ^ 64 + 2 ^ 32 <? 2 ^ 31)%Z with false by lia. replace ((v - 2 ^ 64 + 2 ^ 32 - 2 ^ 32) / 2 ^ 16)%Z with (-1)%Z by (apply (Z.div_unique _ _ _ (v - 2 ^ 64 + 2 ^ 16)%Z); lia).
    change (wrap 32 (-1)) with (2 ^ 32 - 1)%Z. lia.
Qed.
Lemma logb_elem x : word w x ->
  let y := logb1 X nn x in
  (isnanb f x = true -> isnanb f y = true) /\
  (isnanb f x = false -> isfin f x = false -> y = infs f false) /\
  (isfin f x = true -> val f x = 0%R -> y = infs f true) /\
  (isfin f x = true -> val f x <> 0%R -> y = cvl X nn (ev1 X nn (fmag (fw f) x))).
Proof.
  intros Hx. rewrite (xw_fw HX HF) in Hx. cbv zeta.
  unfold logb1. rewrite (xw_fw HX HF), (feq_mag_zero Hx), (feq_mag_inf Hx), orb_diag.
  destruct (fclass Hx) as [(N & Fx) | [(N & I' & Fx) | (N & I' & Fx)]]; rewrite (isnan_spec Hx), N, Fx.
  - rewrite orb_true_r. split; [|repeat split; intros; congruence]. intros _. rewrite (isnan_spec (@fmul_word nn f x x)). apply fmul_nan; auto.
  - split; [intros; congruence|]. split; [|split; intros; congruence]. intros _ _. rewrite I', Z.eqb_refl. cbn [orb].
    rewrite (inf_bits Hx I'). clear. destruct nn, f, (fsign _ x); vm_compute; reflexivity.
  - split; [intros; congruence|]. split; [intros; congruence|]. replace (fmag (fw f) x =? finf (fw f))%Z with false by lia. cbn [orb]. split; intros _ V.
    + apply (val_zero f Hx Fx) in V. rewrite V. cbn [Z.eqb]. clear. destruct nn, f; vm_compute; reflexivity.
    + assert (Nz : fmag (fw f) x <> 0%Z) by (intros E; apply V; apply (val_zero f Hx Fx); auto). replace (fmag (fw f) x =? 0)%Z with false by lia. reflexivity.
Qed.
End Elem.

(** *** Vectors *)
Lemma zeros_shaped J : xty_ok J -> shaped J (repeat (zerov J) (dsz J)).
Proof. intros HJ. split. apply repeat_length. apply Forall_forall. intros v Hv. apply repeat_spec in Hv. subst v. now apply zerov_wf. Qed.
Section Vec.
Context {X : xty} (HX : xty_ok X) (HF : is_int (xT X) = false) (nn : nans).
Lemma put_exps_all (J : xty) es d : xty_ok J -> int_vec_of X J -> shaped X es -> shaped J d ->
  exists d', put_exps X J es d = Ok d' /\ shaped J d' /\ elems J d' = map lo32 (elems X es).
Proof.
  intros HJ (EC & EN & E4 & EI & EV) Se Hd.
  assert (E84 : esz (xT X) = 8 \/ esz (xT X) = 4). { destruct HX as (_ & ET & _). destruct (@float_w X ET HF) as [E|E]; unfold xw, ew in E; lia. }
  destruct E84 as [X8|X4].
  - apply put_exps_ok; auto; [|exact (proj1 Se)|exact (proj2 Se)]. unfold same_abi. rewrite EC, EN, E4, X8, EI, HF. repeat split; auto.
    destruct EV as [V|(_ & V1 & V2 & V3)]; auto.
  - exists es. unfold put_exps. rewrite X4. cbn [Nat.eqb]. split; auto.
    assert (EV' : xvs J = xvs X) by (destruct EV as [V|(V0 & _)]; [auto|congruence]).
    split. { unfold shaped, wfv, dsz, ext, xw, ew in *. rewrite E4, EN, EV'. rewrite X4 in Se. exact Se. }
    assert (Q : elems J es = elems X es) by (unfold elems; now rewrite EN). rewrite Q. symmetry. rewrite <- map_id. apply map_ext_in.
    intros v Hv. apply In_nth_error in Hv. destruct Hv as [i Hi]. pose proof (el_word _ Se Hi) as Wv. unfold word, xw, ew in Wv. rewrite X4 in Wv. apply Z.mod_small. exact Wv.
Qed.
Lemma x_ilogb_each J il0 iln x (P : Z -> Z -> Prop) : xty_ok J -> int_vec_of X J -> shaped X x ->
  (forall v, word (xw X) v -> P v (sgn 32 (lo32 (ilogb1 X nn il0 iln v)))) -> ilogb_each X J x (x_ilogb X J nn il0 iln x) P.
Proof.
  intros HJ HS Hx H.
  assert (L1 : forall k a v, k < ext X -> L X k a v -> L X k (k_ilogb X nn il0 iln a) (ilogb1 X nn il0 iln v)) by (intros k a v _ Hv; exact (k_ilogb_lane nn HX HF il0 iln Hv)).
  assert (M1 := kernel1L HX _ _ L1). pose proof (@lane_word X HX _ _ L1) as W1.
  unfold x_ilogb. rewrite (@kern_map X _ _ x M1 Hx).
  destruct (@put_exps_all J _ _ HJ HS (shaped_map _ W1 Hx) (zeros_shaped HJ)) as (d & -> & Sd & Ed).
  exists d. split; auto. split; auto. rewrite Ed, elems_map, map_map. intros i xi Hi.
  exists (lo32 (ilogb1 X nn il0 iln xi)). split; [exact (map_nth_error _ _ _ Hi)|]. apply H. exact (el_word _ Hx Hi).
Qed.
Lemma x_logb_each x (P : Z -> Z -> Prop) : shaped X x -> (forall v, word (xw X) v -> P v (logb1 X nn v)) -> each1 X x (x_logb X nn x) P.
Proof.
  intros Hx H.
  assert (L1 : forall k a v, k < ext X -> L X k a v -> L X k (k_logb X nn a) (logb1 X nn v)) by (intros k a v _ Hv; exact (k_logb_lane nn HX HF Hv)).
  assert (M1 := kernel1L HX _ _ L1). pose proof (@lane_word X HX _ _ L1) as W1.
  eapply (map1_each HX Hx); [|exact H]. apply vz1_map; auto. intros v Hv. now rewrite M1.
Qed.
End Vec.

(** *** C32 *)
(** Every element type and every build: NaN, zeros and normal numbers; subnormals for float and, for double, on the builds whose
    conversion int64 -> double is right (no SSE4.1 for 128-bit vectors, AVX2 for 256-bit ones); infinities for float. *)
Theorem C32_ilogb_partial : forall nn X J il0 iln x, xty_ok X -> xty_ok J -> is_int (xT X) = false -> int_vec_of X J -> is_int32 il0 -> is_int32 iln -> shaped X x ->
  ilogb_each X J x (x_ilogb X J nn il0 iln x) (fun x e =>
    isnanb (xf X) x = true \/ (isfin (xf X) x = true /\ (val (xf X) x = 0%R \/ isnormb (xf X) x = true)) \/ esz (xT X) = 4 \/
    (isfin (xf X) x = true /\ (is256 X = false /\ sse41 (xc X) = false \/ is256 X = true /\ avx2 (xc X) = true)) -> ilogb_ok (xf X) il0 iln x e).
Proof.
  intros nn X J il0 iln x HX HJ HF HS H0 Hn Hx. apply x_ilogb_each; auto. intros v Hv C. destruct (ilogb_elem nn HX HF H0 Hn Hv) as (A1 & A2 & A3 & A4).
  unfold ilogb_ok. destruct (isnanb (xf X) v) eqn:N; auto. destruct (isfin (xf X) v) eqn:Fv.
  - destruct (Req_bool_spec (val (xf X) v) 0) as [Z0|NZ]; auto. apply A4; auto. destruct C as [C|[[_ [C|C]]|[C|[_ C]]]]; auto; congruence.
  - rewrite A2; auto. destruct C as [C|[[C _]|[C|[C _]]]]; try congruence. rewrite C. reflexivity.
Qed.
Print Assumptions C32_ilogb_partial.
(** ilogb of float vectors is right for every bit pattern on every build. *)
Theorem C32_ilogb_float : forall nn X J il0 iln x, xty_ok X -> xty_ok J -> is_int (xT X) = false -> esz (xT X) = 4 -> int_vec_of X J -> is_int32 il0 -> is_int32 iln -> shaped X x ->
  ilogb_each X J x (x_ilogb X J nn il0 iln x) (ilogb_ok F32 il0 iln).
Proof.
  intros nn X J il0 iln x HX HJ HF E HS H0 Hn Hx. destruct (C32_ilogb_partial nn HX HJ HF HS H0 Hn Hx) as (e & A & B & C). exists e. split; auto. split; auto.
  intros i xi Hi. destruct (C i xi Hi) as (ei & D1 & D2). exists ei. split; auto. assert (Ef : xf X = F32) by (destruct (xT_float HX HF) as [(_ & Q & _) | (Q & _)]; [auto|congruence]).
  rewrite Ef in D2. apply D2. auto.
Qed.
Print Assumptions C32_ilogb_float.
Example C32_ilogb_float_case : int_vec_of f32x5 i32x5 /\
  x_ilogb f32x5 i32x5 nans0 (- 2 ^ 31) (- 2 ^ 31) [[0x3f800000; 0xbf000000; 1; 0x7f800000]; [0; 0; 0; 0]]%Z =      (* 1, -0.5, the least float, inf, 0 *)
  Ok [[0; 2 ^ 32 - 1; 2 ^ 32 - 149; 2 ^ 31 - 1]; [2 ^ 31; 2 ^ 31; 2 ^ 31; 2 ^ 31]]%Z.
Proof. split; [|vm_compute; reflexivity]. repeat split. now left. Qed.
(** double: ilogb of an infinity is -1 (INT64_MAX truncated to 32 bits), not INT_MAX. *)
Theorem C32_ilogb_inf_refuted : forall nn X J il0 iln x, xty_ok X -> xty_ok J -> is_int (xT X) = false -> esz (xT X) = 8 -> int_vec_of X J -> is_int32 il0 -> is_int32 iln -> shaped X x ->
  ilogb_each X J x (x_ilogb X J nn il0 iln x) (fun x e => isnanb F64 x = false -> isfin F64 x = false -> e = (-1)%Z /\ ~ ilogb_ok F64 il0 iln x e).
Proof.
  intros nn X J il0 iln x HX HJ HF E HS H0 Hn Hx. apply x_ilogb_each; auto. intros v Hv N Fv. destruct (ilogb_elem nn HX HF H0 Hn Hv) as (_ & A2 & _).
  assert (Ef : xf X = F64) by (destruct (xT_float HX HF) as [(Q & _) | (_ & Q & _)]; [congruence|auto]). rewrite Ef in *. rewrite E in A2. rewrite A2 by auto. cbn [Nat.eqb]. split; auto.
  unfold ilogb_ok. rewrite N, Fv. lia.
Qed.
Print Assumptions C32_ilogb_inf_refuted.
(** double on the other builds: the subnormal 2^16 * 2^-1074 gives -1057 instead of -1058 *)
Theorem C32_ilogb_subnormal_refuted : forall nn X J il0 iln, xty_ok X -> xty_ok J -> is_int (xT X) = false -> esz (xT X) = 8 ->
  ~ (is256 X = false /\ sse41 (xc X) = false \/ is256 X = true /\ avx2 (xc X) = true) -> int_vec_of X J -> is_int32 il0 -> is_int32 iln ->
  exists x, shaped X x /\ ilogb_each X J x (x_ilogb X J nn il0 iln x) (fun x e => e = (-1057)%Z /\ ~ ilogb_ok F64 il0 iln x e).
Proof.
  intros nn X J il0 iln HX HJ HF E G HS H0 Hn. exists (repeat (v_fill X 0x10000) (dsz X)).
  assert (Ef : xf X = F64 /\ xw X = 64%Z) by (destruct (xT_float HX HF) as [(Q & _) | (_ & Q & Q')]; [congruence|auto]). destruct Ef as [Ef Ew].
  assert (Hx : shaped X (repeat (v_fill X 0x10000) (dsz X))).
  { split. apply repeat_length. apply Forall_forall. intros v Hv. apply repeat_spec in Hv. subst v. unfold v_fill. split. apply repeat_length.
    apply Forall_forall. intros y Hy. apply repeat_spec in Hy. subst y. rewrite Ew. unfold word. lia. }
  split; auto.
  assert (W : (sgn 32 (lo32 (ilogb1 X nn il0 iln 0x10000)) = -1057)%Z).
  { unfold ilogb1, ev1, cvl. rewrite Ew, E. cbn [Nat.eqb]. replace (i64_goodb X) with false by (symmetry; apply not_true_iff_false; intros Q; apply G; now apply i64_goodb_ok).
    clear. destruct nn. vm_compute. reflexivity. }
  assert (O : ~ ilogb_ok F64 il0 iln 0x10000 (-1057)).
  { unfold ilogb_ok. replace (isnanb F64 65536) with false by (vm_compute; reflexivity). assert (Fx : isfin F64 65536 = true) by (vm_compute; reflexivity). rewrite Fx.
    assert (Wx : word (fw F64) 65536) by (unfold word; cbn; lia).
    assert (V : Rabs (val F64 65536) = bpow radix2 (-1058)).
    { rewrite (abs_val F64 Wx Fx). change (fmag (fw F64) 65536) with 65536%Z. unfold mval. change (msig F64 65536) with 65536%Z. change (mex F64 65536) with (-1074)%Z. change 65536%Z with (Zpower radix2 16). rewrite IZR_Zpower by lia. rewrite <- bpow_plus. reflexivity. }
    rewrite Req_bool_false. 2:{ intros Q. rewrite Q, Rabs_R0 in V. pose proof (bpow_gt_0 radix2 (-1058)). lra. }
    unfold floor_log2. rewrite V. intros [B _]. apply le_bpow in B. lia. }
  destruct (@x_ilogb_each X HX HF nn J il0 iln _ (fun v e => e = sgn 32 (lo32 (ilogb1 X nn il0 iln v))) HJ HS Hx (fun v _ => eq_refl)) as (e & A & B & C).
  exists e. split; auto. split; auto. intros i xi Hi. destruct (C i xi Hi) as (ei & D1 & D2). exists ei. split; auto. rewrite D2.
  assert (xi = 65536%Z) as ->.
  { assert (In xi (concat (repeat (v_fill X 65536) (dsz X)))). { apply nth_error_In in Hi. unfold elems in Hi. rewrite <- (firstn_skipn (xN X)). apply in_or_app. now left. }
    apply in_concat in H. destruct H as (l & Hl & Hi'). apply repeat_spec in Hl. subst l. unfold v_fill in Hi'. now apply repeat_spec in Hi'. }
  rewrite W. auto.
Qed.
Print Assumptions C32_ilogb_subnormal_refuted.

(** logb: right for every bit pattern for float, and for double on the builds whose conversion int64 -> double is right; on the other
    builds for NaN, infinities, zeros and |x| >= 1 *)
Theorem C32_logb_partial : forall nn X x, xty_ok X -> is_int (xT X) = false -> shaped X x ->
  each1 X x (x_logb X nn x) (fun x y =>
    esz (xT X) = 4 \/ (is256 X = false /\ sse41 (xc X) = false \/ is256 X = true /\ avx2 (xc X) = true) \/
    isfin (xf X) x = false \/ val (xf X) x = 0%R \/ (1 <= Rabs (val (xf X) x))%R -> logb_ok (xf X) x y).
Proof.
  intros nn X x HX HF Hx. apply x_logb_each; auto. intros v Hv C. destruct (logb_elem nn HX HF Hv) as (A1 & A2 & A3 & A4). unfold logb_ok.
  destruct (isnanb (xf X) v) eqn:N; auto. destruct (isfin (xf X) v) eqn:Fv; auto. destruct (Req_bool_spec (val (xf X) v) 0) as [Z0|NZ]; auto.
  rewrite A4 by auto. clear A1 A2 A3 A4. rewrite (xw_fw HX HF) in Hv. assert (Nz : fmag (fw (xf X)) v <> 0%Z) by (intros Q; apply NZ; apply (val_zero _ Hv Fv); auto).
  pose proof (ev1_word nn HX HF (fmag (fw (xf X)) v)) as We.
  assert (C' : (esz (xT X) = 4 \/ i64_good (X := X)) \/ (1 <= Rabs (val (xf X) v))%R) by (destruct C as [C|[C|[C|[C|C]]]]; auto; congruence). clear C.
  assert (G : isnormb (xf X) v = true \/ esz (xT X) = 4 \/ i64_good (X := X)).
  { destruct C' as [C|C]; auto. left. unfold isnormb. rewrite Fv, Rle_bool_true; auto. apply Rle_trans with 1%R; auto. change 1%R with (bpow radix2 0). apply bpow_le. destruct (xf X); cbn; lia. }
  pose proof (ev1_ok nn HX HF Hv Fv Nz G) as R. pose proof (floor_range HF Hv Fv Nz R) as B.
  set (e := ev1 X nn (fmag (fw (xf X)) v)) in *. clearbody e.
  assert (Sm : (Z.abs (sgn (xw X) e) < 2 ^ 16)%Z) by (revert B; destruct (xf X); unfold emin, emax, prec; cbn; lia).
  assert (K : nearest_float (xf X) (sgn (xw X) e) (cvl X nn e)).
  { destruct C' as [C|C]. { now apply cvl_ok. }
    destruct (xT_float HX HF) as [(E & _) | (E & Ef & Ew)]. { apply cvl_ok; auto. }
    destruct (i64_goodb X) eqn:Gb. { apply cvl_ok; auto. right. now apply i64_goodb_ok. }
    rewrite Ef, Ew in *. assert (P : (0 <= sgn 64 e)%Z).
    { assert (0 < sgn 64 e + 1)%Z; [|lia]. apply (lt_bpow radix2). destruct R as [_ R]. change (bpow radix2 0) with 1%R. lra. }
    pose proof (@cvl_bad X nn e E) as Q. replace (sgn 64 e <? 0)%Z with false in Q by lia. apply Q; auto; [|lia].
    intros Gd. apply i64_goodb_ok in Gd. congruence. }
  destruct K as (_ & Fy & Vy & _). split; auto. exists (sgn (xw X) e). split; auto. rewrite Vy. apply rnd_int_exact.
  revert Sm. generalize (sgn (xw X) e). destruct (xf X); cbn; lia.
Qed.
Print Assumptions C32_logb_partial.
(** double, SSE4.1 with 128-bit vectors or AVX without AVX2 with 256-bit vectors: for every normal |x| < 1 the result is
    2^49 - 2^16 + floor(log2|x|), so that logb(0.5) is 562949953355775 *)
Theorem C32_logb_negative_refuted : forall nn X x, xty_ok X -> is_int (xT X) = false -> esz (xT X) = 8 ->
  ~ (is256 X = false /\ sse41 (xc X) = false \/ is256 X = true /\ avx2 (xc X) = true) -> shaped X x ->
  each1 X x (x_logb X nn x) (fun x y => isnormb F64 x = true -> (Rabs (val F64 x) < 1)%R ->
    isfin F64 y = true /\ (exists n, floor_log2 F64 x n /\ val F64 y = IZR (2 ^ 49 - 2 ^ 16 + n)) /\ ~ logb_ok F64 x y).
Proof.
  intros nn X x HX HF E G Hx. apply x_logb_each; auto. intros v Hv Nv Lt. destruct (logb_elem nn HX HF Hv) as (_ & _ & _ & A4).
  rewrite (xw_fw HX HF) in Hv. assert (Ef : xf X = F64 /\ xw X = 64%Z) by (destruct (xT_float HX HF) as [(Q & _) | (_ & Q & Q')]; [congruence|auto]). destruct Ef as [Ef Ew]. rewrite Ef in *.
  destruct (norm_exp_field F64 Hv Nv) as (Fv & Nz & _). assert (NZ : val F64 v <> 0%R) by (intros Q; apply Nz; apply (val_zero _ Hv Fv); auto).
  rewrite A4 by auto. clear A4. pose proof (ev1_word nn HX HF (fmag (fw F64) v)) as We.
  assert (R : floor_log2 F64 v (sgn 64 (ev1 X nn (fmag (fw F64) v)))). { rewrite <- Ef, <- Ew. apply ev1_ok; rewrite ?Ef; auto. }
  assert (B : (emin F64 <= sgn 64 (ev1 X nn (fmag (fw F64) v)) < emax F64)%Z). { rewrite <- Ef. apply (@floor_range X HF v); rewrite ?Ef; auto. }
  rewrite Ew in We. set (e := ev1 X nn (fmag (fw F64) v)) in *. clearbody e. change (emin F64) with (-1074)%Z in B. change (emax F64) with 1024%Z in B.
  assert (P : (sgn 64 e < 0)%Z). { apply (lt_bpow radix2). destruct R as [R _]. change (bpow radix2 0) with 1%R. lra. }
  pose proof (@cvl_bad X nn e E G We ltac:(lia)) as Q. replace (sgn 64 e <? 0)%Z with true in Q by lia. destruct Q as (_ & Fy & Vy & _).
  rewrite rnd_int_exact in Vy by (change (prec F64) with 53%Z; lia). set (y := cvl X nn e) in *. clearbody y. split; auto. split. { exists (sgn 64 e). auto. }
  unfold logb_ok. replace (isnanb F64 v) with false by (symmetry; rewrite (isnan_spec Hv); unfold fnan; rewrite (isfin_spec Hv) in Fv; lia). rewrite Fv, Req_bool_false by auto.
  intros (_ & n & Vn & [R1 R2]). rewrite Vn in Vy. apply eq_IZR in Vy. assert (n < 0)%Z; [|lia]. apply (lt_bpow radix2). change (bpow radix2 0) with 1%R. lra.
Qed.
Print Assumptions C32_logb_negative_refuted.
Example C32_logb_case :
  x_logb (f64x2 sse2) nans0 [[0xbfe8000000000000; 1]]%Z = Ok [[0xbff0000000000000; 0xc090c80000000000]]%Z /\       (* logb(-0.75) = -1, logb(2^-1074) = -1074 *)
  x_logb (f64x2 sse4) nans0 [[0xbfe8000000000000; 0x4010000000000000]]%Z = Ok [[0x42ffffffffeffff0; 0x4000000000000000]]%Z /\       (* SSE4.1: logb(-0.75) = 2^49 - 2^16 - 1; logb(4) = 2 *)
  x_logb f32x5 nans0 [[0; 0xff800000; 0x41000000; 0]; [3; 0; 0; 0]]%Z = Ok [[0xff800000; 0x7f800000; 0x40400000; 0xff800000]; [0xc3140000; 0xff800000; 0xff800000; 0xff800000]]%Z.
Proof. repeat split; vm_compute; reflexivity. Qed.
