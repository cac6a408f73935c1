(** C43 (hypot) and C49 (sqrt, rcp). *)
From Coq Require Import ZifyBool ZifyNat Reals Lra.
From Flocq Require Import Core IEEE754.BinarySingleNaN IEEE754.Binary.
From Verif Require Import Base Cxx Spec X86Vec X86 X86Lemmas X86Proofs X86Masks X86Ops X86Shift Fp FpLemmas FpOps FKern FMath FMathProofs FLane FManip FManipLanes PropX86 PropFloat PropManip PropCvt PropRound FArith PropArith FCvt Hypot HypotProofs HypotSem.
Set Implicit Arguments.

(** *** Specification *)
Definition isinf (f : fmt) (x : Z) : Prop := x = infs f false \/ x = infs f true.
Definition iszero (f : fmt) (x : Z) : Prop := x = szero f false \/ x = szero f true.
(** sign bit cleared *)
Definition absbits (f : fmt) (x : Z) : Z := (x mod 2 ^ (fw f - 1))%Z.

Lemma isinf_mag {f} x : word (fw f) x -> (isinf f x <-> fmag (fw f) x = finf (fw f)).
Proof.
  intros Hx. split.
  - intros [-> | ->]; apply fmag_inf.
  - intros H. pose proof (inf_bits Hx H) as E. destruct (fsign (fw f) x); rewrite E; [right|left]; reflexivity.
Qed.
Lemma iszero_mag {f} x : word (fw f) x -> (iszero f x <-> fmag (fw f) x = 0%Z).
Proof.
  intros Hx. split.
  - intros [-> | ->]; destruct f; reflexivity.
  - intros H. destruct (word_split Hx) as [_ E]. rewrite H in E. destruct (fsign (fw f) x) eqn:S; [right|left]; rewrite E; destruct f; reflexivity.
Qed.

Section K.
Context {X : xty} (HX : xty_ok X) (HF : is_int (xT X) = false) (nn : nans).
Lemma hyp_each fm pn a b (P : Z -> Z -> Z -> Prop) : shaped X a -> shaped X b -> (forall x y, word (fw (xf X)) x -> word (fw (xf X)) y -> P x y (hyp1 (X := X) nn fm pn x y)) -> each2 X a b (x_hypot X fm pn nn a b) P.
Proof. intros Ha Hb H. apply (@k2_each X HX HF (k_hypot X fm pn nn) (hyp1 (X := X) nn fm pn)); auto. intros. now apply l_hypot. Qed.
End K.

(** *** hypot *)
(** hypot(a, b) = hypot(b, a), bit for bit, for all elements that are not NaN; float and double, every build. *)
Theorem C43_symmetric : forall nn X fm pn a b, xty_ok X -> is_int (xT X) = false -> shaped X a -> shaped X b ->
  exists u v, x_hypot X fm pn nn a b = Ok u /\ x_hypot X fm pn nn b a = Ok v /\
    forall i x y, nth_error (elems X a) i = Some x -> nth_error (elems X b) i = Some y -> isnanb (xf X) x = false -> isnanb (xf X) y = false ->
      exists r, nth_error (elems X u) i = Some r /\ nth_error (elems X v) i = Some r.
Proof.
  intros nn X fm pn a b HX HF Ha Hb.
  destruct (@hyp_each X HX HF nn fm pn a b (fun x y r => r = hyp1 (X := X) nn fm pn x y) Ha Hb (fun _ _ _ _ => eq_refl)) as (u & U1 & U2 & U3).
  destruct (@hyp_each X HX HF nn fm pn b a (fun x y r => r = hyp1 (X := X) nn fm pn x y) Hb Ha (fun _ _ _ _ => eq_refl)) as (v & V1 & V2 & V3).
  exists u, v. split; auto. split; auto. intros i x y Hx Hy Nx Ny. destruct (U3 i x y Hx Hy) as (r & R1 & R2). destruct (V3 i y x Hy Hx) as (r' & R3 & R4).
  pose proof (el_word _ Ha Hx) as Wx. pose proof (el_word _ Hb Hy) as Wy. rewrite (xw_fw HX HF) in Wx, Wy. rewrite (isnan_spec Wx) in Nx. rewrite (isnan_spec Wy) in Ny. rewrite <- (xw_fw HX HF) in Nx, Ny.
  exists r. split; auto. rewrite R3, R4, R2. f_equal. symmetry. now apply hyp_sym.
Qed.
Print Assumptions C43_symmetric.

Section F.
Context {X : xty} (HX : xty_ok X) (HF : is_int (xT X) = false) (E4 : esz (xT X) = 4) (nn : nans).
Open Scope Z_scope.
Lemma hypf_all fm pn x y : word 32 x -> word 32 y -> let r := hyp1 (X := X) nn fm pn x y in
  (isinf F32 x \/ isinf F32 y -> pn = true \/ (isnanb F32 x = false /\ isnanb F32 y = false) -> r = infs F32 false) /\
  (iszero F32 y -> isnanb F32 x = false -> r = absbits F32 x) /\ (iszero F32 x -> isnanb F32 y = false -> r = absbits F32 y) /\
  (isnanb F32 x = false -> isnanb F32 y = false -> isnanb F32 r = false /\ fsign 32 r = false) /\
  (isnanb F32 x = true \/ isnanb F32 y = true -> ~ isinf F32 x -> ~ isinf F32 y -> isnanb F32 r = true).
Proof.
  intros Hx Hy r. change (word (fw F32) x) in Hx. change (word (fw F32) y) in Hy. pose proof (magok x) as Mx. pose proof (magok y) as My.
  assert (Wr : word (fw F32) r). { unfold r. change (fw F32) with 32. rewrite <- (Ew4 E4). apply (lane_word2 HX (k_hypot X fm pn nn) (hyp1 (X := X) nn fm pn)); [intros; now apply l_hypot| |]; rewrite (Ew4 E4); assumption. }
  rewrite (isinf_mag Hx), (isinf_mag Hy), (iszero_mag Hx), (iszero_mag Hy), (isnan_spec Hx), (isnan_spec Hy), (isnan_spec Wr). change (fw F32) with 32.
  unfold r. rewrite hypf_eq by auto.
  assert (NN : fnan 32 x = false -> fnan 32 y = false -> hia (X := X) x y = Z.max (fmag 32 x) (fmag 32 y) /\ hib (X := X) x y = Z.min (fmag 32 x) (fmag 32 y)). { rewrite <- (Ew4 E4). now apply hia_max. }
  assert (NA : fnan 32 x = true \/ fnan 32 y = true -> hia (X := X) x y = fmag 32 x /\ hib (X := X) x y = fmag 32 y). { rewrite <- (Ew4 E4). now apply hia_nan. }
  assert (Ex : absbits F32 x = fmag 32 x) by reflexivity. assert (Ey : absbits F32 y = fmag 32 y) by reflexivity. rewrite ?Ex, ?Ey. clear Ex Ey.
  clear r Wr. unfold mag_ok in Mx, My.
  split; [|split; [|split; [|split]]].
  - intros H Q. destruct (fnan 32 x) eqn:Nx; [|destruct (fnan 32 y) eqn:Ny].
    + destruct (NA (or_introl eq_refl)) as [-> ->]. unfold fnan in Nx. destruct Q as [-> | [Q _]]; [|discriminate]. apply hypf_inf_nan; auto. right. lia.
    + destruct (NA (or_intror eq_refl)) as [-> ->]. unfold fnan in Ny. destruct Q as [-> | [_ Q]]; [|discriminate]. apply hypf_inf_nan; auto. left. lia.
    + destruct (NN eq_refl eq_refl) as [-> ->]. unfold fnan in Nx, Ny. replace (Z.max (fmag 32 x) (fmag 32 y)) with (finf 32) by lia. apply hypf_inf; auto. apply (mag_pos32 HF E4); [unfold mag_ok; lia|lia].
  - intros Y0 Nx. assert (Ny : fnan 32 y = false) by (unfold fnan; rewrite Y0; reflexivity). destruct (NN Nx Ny) as [-> ->]. rewrite Y0, Z.max_l, Z.min_r by lia. apply hypf_zero; auto. apply (mag_pos32 HF E4); [exact Mx|]. unfold fnan in Nx. lia.
  - intros Y0 Ny. assert (Nx : fnan 32 x = false) by (unfold fnan; rewrite Y0; reflexivity). destruct (NN Nx Ny) as [-> ->]. rewrite Y0, Z.max_r, Z.min_l by lia. apply hypf_zero; auto. apply (mag_pos32 HF E4); [exact My|]. unfold fnan in Ny. lia.
  - intros Nx Ny. destruct (NN Nx Ny) as [-> ->]. unfold fnan in Nx, Ny. assert (P : pos F32 (hypf (X := X) nn fm pn (Z.max (fmag 32 x) (fmag 32 y)) (Z.min (fmag 32 x) (fmag 32 y)))) by (apply hypf_pos; auto; apply (mag_pos32 HF E4); unfold mag_ok; lia).
    destruct P as (_ & S & N). auto.
  - intros N Ix Iy. destruct (NA N) as [-> ->]. unfold fnan in N. apply hypf_nan; auto; lia.
Qed.
End F.
(** hypot of float vectors, every build and every pair of bit patterns:
    an infinite operand gives +inf (with DPM_PROPAGATE_NAN even if the other is NaN), hypot(x, +-0) = |x|, the result is NaN only for NaN operands and otherwise
    non-negative, and a NaN operand without an infinity gives NaN. *)
Theorem C43_float : forall nn X fm pn a b, xty_ok X -> is_int (xT X) = false -> esz (xT X) = 4 -> shaped X a -> shaped X b ->
  each2 X a b (x_hypot X fm pn nn a b) (fun x y r =>
    (isinf F32 x \/ isinf F32 y -> pn = true \/ (isnanb F32 x = false /\ isnanb F32 y = false) -> r = infs F32 false) /\
    (iszero F32 y -> isnanb F32 x = false -> r = absbits F32 x) /\ (iszero F32 x -> isnanb F32 y = false -> r = absbits F32 y) /\
    (isnanb F32 x = false -> isnanb F32 y = false -> isnanb F32 r = false /\ fsign 32 r = false) /\
    (isnanb F32 x = true \/ isnanb F32 y = true -> ~ isinf F32 x -> ~ isinf F32 y -> isnanb F32 r = true)).
Proof. intros nn X fm pn a b HX HF E4 Ha Hb. apply hyp_each; auto. rewrite (Ef4 E4). intros x y Hx Hy. exact (@hypf_all X HX HF E4 nn fm pn x y Hx Hy). Qed.
Print Assumptions C43_float.
Example C43_float_case : xty_ok (f4 sse2) /\   (* (inf, NaN), (-3, 0), (3, -4), (-inf, 5) *)
  x_hypot (f4 sse2) false true nans0 [[0x7f800000; 0xc0400000; 0x40400000; 0xff800000]]%Z [[0x7fc00000; 0; 0xc0800000; 0x40a00000]]%Z = Ok [[0x7f800000; 0x40400000; 0x40a00000; 0x7f800000]]%Z.
Proof. split; [xok|vm_compute; reflexivity]. Qed.
(** Without DPM_PROPAGATE_NAN, hypot(inf, NaN) is NaN (float). *)
Theorem C43_float_nan_refuted : forall nn X fm a b, xty_ok X -> is_int (xT X) = false -> esz (xT X) = 4 -> shaped X a -> shaped X b ->
  each2 X a b (x_hypot X fm false nn a b) (fun x y r => isnanb F32 x = true \/ isnanb F32 y = true -> isnanb F32 r = true).
Proof.
  intros nn X fm a b HX HF E4 Ha Hb. apply hyp_each; auto. rewrite (Ef4 E4). intros x y Hx Hy. rewrite (isnan_spec Hx), (isnan_spec Hy). intros N.
  assert (Wr : word (fw F32) (hyp1 (X := X) nn fm false x y)). { change (fw F32) with 32%Z. rewrite <- (Ew4 E4). apply (lane_word2 HX (k_hypot X fm false nn) (hyp1 (X := X) nn fm false)); [intros; now apply l_hypot| |]; rewrite (Ew4 E4); assumption. }
  rewrite (isnan_spec Wr), hypf_eq by auto. change (fw F32) with 32%Z in *. destruct (hia_nan HX HF x y) as [-> ->]; rewrite (Ew4 E4); auto. apply hypf_inf_nan0; try exact (magok x); try exact (magok y); auto. unfold fnan in N. lia.
Qed.
Print Assumptions C43_float_nan_refuted.

Section D.
Context {X : xty} (HX : xty_ok X) (HF : is_int (xT X) = false) (E8 : esz (xT X) = 8) (nn : nans).
Open Scope Z_scope.
Lemma hypd_all fm pn x y : word 64 x -> word 64 y -> let r := hyp1 (X := X) nn fm pn x y in let top z := (absbits F64 z / 2 ^ 32)%Z in
  (isinf F64 x \/ isinf F64 y -> isnanb F64 x = false -> isnanb F64 y = false -> pn = true \/ (top x <= 0x7ff00000 - 65 * 2 ^ 20 \/ top y <= 0x7ff00000 - 65 * 2 ^ 20) -> r = infs F64 false) /\
  (isinf F64 x \/ isinf F64 y -> isnanb F64 x = false -> isnanb F64 y = false -> pn = false -> 0x7ff00000 - 65 * 2 ^ 20 < top x -> 0x7ff00000 - 65 * 2 ^ 20 < top y -> isnanb F64 r = true) /\
  (pn = true -> isinf F64 y -> isnanb F64 x = true -> r = infs F64 false) /\
  (pn = true -> isinf F64 x -> isnanb F64 y = true -> if top y =? 0x7ff00000 then isnanb F64 r = true else r = infs F64 false) /\
  (iszero F64 y -> isnanb F64 x = false -> top x = 0 \/ 65 * 2 ^ 20 <= top x -> r = absbits F64 x) /\
  (iszero F64 x -> isnanb F64 y = false -> top y = 0 \/ 65 * 2 ^ 20 <= top y -> r = absbits F64 y) /\
  (isnanb F64 x = true \/ isnanb F64 y = true -> ~ isinf F64 x -> ~ isinf F64 y -> isnanb F64 r = true) /\
  (top x = 0 -> top y = 0 -> isfin F64 r = true /\ val F64 r = (Rabs (val F64 x) + Rabs (val F64 y))%R).
Proof.
  intros Hx Hy r top. change (word (fw F64) x) in Hx. change (word (fw F64) y) in Hy. pose proof (magokd x) as Mx. pose proof (magokd y) as My.
  assert (Wr : word (fw F64) r). { unfold r. change (fw F64) with 64. rewrite <- (Ew8 E8). apply (lane_word2 HX (k_hypot X fm pn nn) (hyp1 (X := X) nn fm pn)); [intros; now apply l_hypot| |]; rewrite (Ew8 E8); assumption. }
  rewrite (isinf_mag Hx), (isinf_mag Hy), (iszero_mag Hx), (iszero_mag Hy), (isnan_spec Hx), (isnan_spec Hy), (isnan_spec Wr). change (fw F64) with 64.
  assert (Er : r = hypd (X := X) nn fm pn (hia (X := X) x y) (hib (X := X) x y)) by (unfold r; rewrite hypd_eq by auto; reflexivity).
  assert (Ex : absbits F64 x = fmag 64 x) by reflexivity. assert (Ey : absbits F64 y = fmag 64 y) by reflexivity.
  assert (Tx : top x = topd (fmag 64 x)) by reflexivity. assert (Ty : top y = topd (fmag 64 y)) by reflexivity. rewrite Tx, Ty, Ex, Ey. clear top Tx Ty Ex Ey. rewrite Er. clear r Wr Er.
  assert (NN : fnan 64 x = false -> fnan 64 y = false -> hia (X := X) x y = Z.max (fmag 64 x) (fmag 64 y) /\ hib (X := X) x y = Z.min (fmag 64 x) (fmag 64 y)). { rewrite <- (Ew8 E8). now apply hia_max. }
  assert (NA : fnan 64 x = true \/ fnan 64 y = true -> hia (X := X) x y = fmag 64 x /\ hib (X := X) x y = fmag 64 y). { rewrite <- (Ew8 E8). now apply hia_nan. }
  assert (TM : topd (Z.min (fmag 64 x) (fmag 64 y)) = Z.min (topd (fmag 64 x)) (topd (fmag 64 y))). { unfold topd. clear. destruct (Z.le_ge_cases (fmag 64 x) (fmag 64 y)) as [L | L]; pose proof (Z.div_le_mono _ _ (2 ^ 32) ltac:(lia) L); lia. }
  assert (TX : topd (Z.max (fmag 64 x) (fmag 64 y)) = Z.max (topd (fmag 64 x)) (topd (fmag 64 y))). { unfold topd. clear. destruct (Z.le_ge_cases (fmag 64 x) (fmag 64 y)) as [L | L]; pose proof (Z.div_le_mono _ _ (2 ^ 32) ltac:(lia) L); lia. }
  assert (TF : topd (finf 64) = 0x7ff00000) by reflexivity.
  unfold mag_okd in Mx, My.
  split; [|split; [|split; [|split; [|split; [|split; [|split]]]]]].
  - intros H Nx Ny Q. destruct (NN Nx Ny) as [-> ->]. unfold fnan in Nx, Ny. replace (Z.max (fmag 64 x) (fmag 64 y)) with (finf 64) by lia.
    assert (P : pos F64 (Z.min (fmag 64 x) (fmag 64 y))) by (apply (mag_pos64 HF E8); unfold mag_okd; lia). destruct pn; [now apply hypd_inf|]. apply hypd_inf0; auto. destruct Q as [Q | Q]; [discriminate|lia].
  - intros H Nx Ny -> Q1 Q2. destruct (NN Nx Ny) as [-> ->]. unfold fnan in Nx, Ny. replace (Z.max (fmag 64 x) (fmag 64 y)) with (finf 64) by lia.
    assert (P : pos F64 (Z.min (fmag 64 x) (fmag 64 y))) by (apply (mag_pos64 HF E8); unfold mag_okd; lia). apply hypd_inf0_bug; auto. lia.
  - intros -> Iy Nx. destruct (NA (or_introl Nx)) as [-> ->]. unfold fnan in Nx. apply hypd_inf_nan; auto. right. lia.
  - intros -> Ix Ny. destruct (NA (or_intror Ny)) as [-> ->]. unfold fnan in Ny. rewrite Ix. destruct (Z.eqb_spec (topd (fmag 64 y)) 0x7ff00000) as [T|T]; [apply hypd_inf_nan_bug; auto; lia|].
    apply hypd_inf_nan; auto; [split; [discriminate|reflexivity]|]. left. split; auto. split; [lia|exact T].
  - intros Y0 Nx T. assert (Ny : fnan 64 y = false) by (unfold fnan; rewrite Y0; reflexivity). destruct (NN Nx Ny) as [-> ->]. rewrite Y0, Z.max_l, Z.min_r by lia. apply hypd_zero; auto. apply (mag_pos64 HF E8); [exact Mx|]. unfold fnan in Nx. lia.
  - intros Y0 Ny T. assert (Nx : fnan 64 x = false) by (unfold fnan; rewrite Y0; reflexivity). destruct (NN Nx Ny) as [-> ->]. rewrite Y0, Z.max_r, Z.min_l by lia. apply hypd_zero; auto. apply (mag_pos64 HF E8); [exact My|]. unfold fnan in Ny. lia.
  - intros N Ix Iy. destruct (NA N) as [-> ->]. unfold fnan in N. apply hypd_nan; auto. lia.
  - intros T1 T2. assert (L1 : fmag 64 x < 2 ^ 32). { unfold topd in T1. pose proof (Z_div_mod_eq_full (fmag 64 x) (2 ^ 32)). pose proof (Z.mod_pos_bound (fmag 64 x) (2 ^ 32) ltac:(lia)). lia. }
    assert (L2 : fmag 64 y < 2 ^ 32). { unfold topd in T2. pose proof (Z_div_mod_eq_full (fmag 64 y) (2 ^ 32)). pose proof (Z.mod_pos_bound (fmag 64 y) (2 ^ 32) ltac:(lia)). lia. }
    assert (Nx : fnan 64 x = false) by (unfold fnan; change (finf 64) with 0x7ff0000000000000; lia). assert (Ny : fnan 64 y = false) by (unfold fnan; change (finf 64) with 0x7ff0000000000000; lia).
    destruct (NN Nx Ny) as [-> ->]. rewrite hypd_tiny by (auto; lia).
    assert (Fx : isfin F64 x = true) by (rewrite (isfin_spec Hx); change (finf (fw F64)) with 0x7ff0000000000000; change (fw F64) with 64; lia).
    assert (Fy : isfin F64 y = true) by (rewrite (isfin_spec Hy); change (finf (fw F64)) with 0x7ff0000000000000; change (fw F64) with 64; lia).
    assert (V : forall k, 0 <= k < 2 ^ 33 -> mval F64 k = (IZR k * bpow radix2 (-1074))%R). { intros k Hk. unfold mval, msig, mex, mexp, mman. change (mw F64) with 52. rewrite Z.div_small, Z.mod_small by lia. reflexivity. }
    rewrite (abs_val F64 Hx Fx), (abs_val F64 Hy Fy). change (fw F64) with 64. rewrite !V by lia. rewrite <- Rmult_plus_distr_r, <- plus_IZR.
    set (p := Z.max (fmag 64 x) (fmag 64 y)) in *. set (q := Z.min (fmag 64 x) (fmag 64 y)) in *. replace (fmag 64 x + fmag 64 y) with (p + q) by lia. assert (Rp : 0 <= p < 2 ^ 32) by lia. assert (Rq : 0 <= q < 2 ^ 32) by lia. clearbody p q. clear -V Rp Rq HF E8.
    assert (A : forall k, 0 <= k < 2 ^ 33 -> pos F64 k /\ isfin F64 k = true /\ val F64 k = mval F64 k). { intros k Hk. assert (Pk : pos F64 k) by (apply (mag_pos64 HF E8); unfold mag_okd; change (finf 64) with 0x7ff0000000000000; lia). split; auto. destruct Pk as (Wk & Sk & Nk).
      assert (Mk : fmag (fw F64) k = k) by (unfold fmag; apply Z.mod_small; cbn; lia). assert (Fk : isfin F64 k = true) by (rewrite (isfin_spec Wk), Mk; change (finf (fw F64)) with 0x7ff0000000000000; lia). split; auto. rewrite (val_mag Wk Fk), Sk, Mk. reflexivity. }
    destruct (A p ltac:(lia)) as (Pp & Fp & Vp). destruct (A q ltac:(lia)) as (Pq & Fq & Vq). destruct (A (p + q) ltac:(lia)) as (Ps & Fs & Vs).
    assert (E : (val F64 p + val F64 q = val F64 (p + q))%R) by (rewrite Vp, Vq, Vs, !V, plus_IZR by lia; ring).
    assert (B : (Rabs (rnd F64 (val F64 p + val F64 q)) < bpow radix2 (emax F64))%R) by (rewrite E, rnd_id by apply fmt_val; apply val_lt_emax).
    destruct (@fadd_fin nn F64 p q (proj1 Pp) (proj1 Pq) Fp Fq B) as (Vr & Fr & _). rewrite E, rnd_id in Vr by apply fmt_val. split; auto. rewrite Vr, Vs. apply V. lia.
Qed.
End D.
(** The upper half of the bits without the sign, and the doubles whose magnitude is below 2^-1042 (the smallest subnormals). *)
Definition top32 (z : Z) : Z := (absbits F64 z / 2 ^ 32)%Z.
(** hypot of double vectors: what holds of the special values.  An infinite operand gives +inf if the other is not NaN, with DPM_PROPAGATE_NAN or if the other is
    below about 2^959; hypot(x, +-0) = |x| unless |x| is below 2^-958 (and not below 2^-1042); NaN operands give NaN. *)
Theorem C43_double_partial : forall nn X fm pn a b, xty_ok X -> is_int (xT X) = false -> esz (xT X) = 8 -> shaped X a -> shaped X b ->
  each2 X a b (x_hypot X fm pn nn a b) (fun x y r =>
    (isinf F64 x \/ isinf F64 y -> isnanb F64 x = false -> isnanb F64 y = false -> pn = true \/ (top32 x <= 0x7ff00000 - 65 * 2 ^ 20 \/ top32 y <= 0x7ff00000 - 65 * 2 ^ 20)%Z -> r = infs F64 false) /\
    (pn = true -> isinf F64 y -> isnanb F64 x = true -> r = infs F64 false) /\
    (pn = true -> isinf F64 x -> isnanb F64 y = true -> (top32 y <> 0x7ff00000)%Z -> r = infs F64 false) /\
    (iszero F64 y -> isnanb F64 x = false -> (top32 x = 0 \/ 65 * 2 ^ 20 <= top32 x)%Z -> r = absbits F64 x) /\
    (iszero F64 x -> isnanb F64 y = false -> (top32 y = 0 \/ 65 * 2 ^ 20 <= top32 y)%Z -> r = absbits F64 y) /\
    (isnanb F64 x = true \/ isnanb F64 y = true -> ~ isinf F64 x -> ~ isinf F64 y -> isnanb F64 r = true)).
Proof.
  intros nn X fm pn a b HX HF E8 Ha Hb. apply hyp_each; auto. rewrite (Ef8 E8). intros x y Hx Hy. destruct (@hypd_all X HX HF E8 nn fm pn x y Hx Hy) as (H1 & H2 & H3 & H4 & H5 & H6 & H7 & H8).
  split; [exact H1|]. split; [exact H3|]. split; [|split; [exact H5|split; [exact H6|exact H7]]].
  intros P I N T. specialize (H4 P I N). destruct (Z.eqb_spec (absbits F64 y / 2 ^ 32) 0x7ff00000) as [E|_]; [now elim T|exact H4].
Qed.
Print Assumptions C43_double_partial.
Example C43_double_case : xty_ok (d2 sse2) /\   (* (inf, 1), (-3, -0) *)
  x_hypot (d2 sse2) false false nans0 [[0x7ff0000000000000; 0xc008000000000000]]%Z [[0x3ff0000000000000; 0x8000000000000000]]%Z = Ok [[0x7ff0000000000000; 0x4008000000000000]]%Z.
Proof. split; [xok|vm_compute; reflexivity]. Qed.
(** Without DPM_PROPAGATE_NAN, hypot(inf, y) of doubles is NaN for every y above about 2^959, including hypot(inf, inf). *)
Theorem C43_double_inf_refuted : forall nn X fm a b, xty_ok X -> is_int (xT X) = false -> esz (xT X) = 8 -> shaped X a -> shaped X b ->
  each2 X a b (x_hypot X fm false nn a b) (fun x y r =>
    isinf F64 x \/ isinf F64 y -> isnanb F64 x = false -> isnanb F64 y = false -> (0x7ff00000 - 65 * 2 ^ 20 < top32 x)%Z -> (0x7ff00000 - 65 * 2 ^ 20 < top32 y)%Z -> isnanb F64 r = true).
Proof.
  intros nn X fm a b HX HF E8 Ha Hb. apply hyp_each; auto. rewrite (Ef8 E8). intros x y Hx Hy. destruct (@hypd_all X HX HF E8 nn fm false x y Hx Hy) as (H1 & H2 & _). intros A B C D E. apply H2; auto.
Qed.
Print Assumptions C43_double_inf_refuted.
Example C43_double_inf_case : (0x7ff00000 - 65 * 2 ^ 20 < top32 (infs F64 false))%Z /\ (0x7ff00000 - 65 * 2 ^ 20 < top32 0x7fe0000000000000)%Z. Proof. vm_compute. split; reflexivity. Qed.
(** With DPM_PROPAGATE_NAN, hypot(inf, NaN) of doubles is NaN when the payload of the NaN lies in its low 32 bits (it should be +inf). *)
Theorem C43_double_nan_refuted : forall nn X fm a b, xty_ok X -> is_int (xT X) = false -> esz (xT X) = 8 -> shaped X a -> shaped X b ->
  each2 X a b (x_hypot X fm true nn a b) (fun x y r => isinf F64 x -> isnanb F64 y = true -> top32 y = 0x7ff00000%Z -> isnanb F64 r = true).
Proof.
  intros nn X fm a b HX HF E8 Ha Hb. apply hyp_each; auto. rewrite (Ef8 E8). intros x y Hx Hy. destruct (@hypd_all X HX HF E8 nn fm true x y Hx Hy) as (H1 & H2 & H3 & H4 & _). intros A B T. specialize (H4 eq_refl A B). cbv zeta in H4. unfold top32 in T. rewrite T in H4. exact H4.
Qed.
Print Assumptions C43_double_nan_refuted.
Example C43_double_nan_case : isnanb F64 0x7ff0000000000001 = true /\ top32 0x7ff0000000000001 = 0x7ff00000%Z. Proof. vm_compute. split; reflexivity. Qed.
(** For two doubles below 2^-1042 the result is |x| + |y|, not sqrt(x^2 + y^2): the 3-4-5 triangle of the smallest subnormals gives 7. *)
Theorem C43_double_tiny_refuted : forall nn X fm pn a b, xty_ok X -> is_int (xT X) = false -> esz (xT X) = 8 -> shaped X a -> shaped X b ->
  each2 X a b (x_hypot X fm pn nn a b) (fun x y r => top32 x = 0%Z -> top32 y = 0%Z -> isfin F64 r = true /\ val F64 r = (Rabs (val F64 x) + Rabs (val F64 y))%R).
Proof.
  intros nn X fm pn a b HX HF E8 Ha Hb. apply hyp_each; auto. rewrite (Ef8 E8). intros x y Hx Hy. destruct (@hypd_all X HX HF E8 nn fm pn x y Hx Hy) as (_ & _ & _ & _ & _ & _ & _ & H8). exact H8.
Qed.
Print Assumptions C43_double_tiny_refuted.
Example C43_double_tiny_case : x_hypot (d2 haswell) true true nans0 [[3; 0x8000000000000003]]%Z [[4; 4]]%Z = Ok [[7; 7]]%Z. Proof. vm_compute; reflexivity. Qed.

(** *** sqrt and rcp *)
Definition sqrt_spec (f : fmt) (x r : Z) : Prop :=
  (isfin f x = true -> (0 <= val f x)%R -> isfin f r = true /\ val f r = rnd f (sqrt (val f x))) /\
  (iszero f x -> r = x) /\ (x = infs f false -> r = x) /\
  (isnanb f x = true \/ x = infs f true \/ (isfin f x = true /\ val f x < 0)%R -> isnanb f r = true).
Lemma sqrt_ok nn f x : word (fw f) x -> sqrt_spec f x (fsqrt nn f x).
Proof.
  intros Hx. split; [|split; [|split]].
  - intros Fx Vx. destruct (@fsqrt_fin nn f x Hx Fx Vx) as (V & F & _). auto.
  - intros Z. assert (Fx : isfin f x = true) by (destruct Z as [-> | ->]; destruct f; reflexivity). assert (Vx : val f x = 0%R) by (destruct Z as [-> | ->]; destruct f; reflexivity).
    destruct (@fsqrt_fin nn f x Hx Fx ltac:(lra)) as (V & F & S). rewrite Vx, sqrt_0, rnd_0 in V. pose proof (fsqrt_word nn f x) as Wr.
    apply (@bits_inj f); auto. congruence.
  - intros ->. apply fsqrt_inf.
  - intros H. rewrite (isnan_spec (fsqrt_word nn f x)). apply fsqrt_neg; auto. destruct H as [N | [-> | [F V]]].
    + left. now rewrite <- (isnan_spec Hx).
    + right. rewrite fsign_inf, fmag_inf. split; auto. destruct f; discriminate.
    + right. pose proof (val_mag Hx F) as E. pose proof (fmag_range (f := f) x) as R. destruct (fsign (fw f) x) eqn:S.
      * split; auto. intros M. rewrite M, mval_0 in E. lra.
      * exfalso. rewrite E in V. assert (0 <= mval f (fmag (fw f) x))%R; [|lra]. rewrite <- (@mval_0 f). destruct (Z.eq_dec (fmag (fw f) x) 0) as [-> | N]; [lra|]. left. apply mval_lt; lia.
Qed.
Theorem C49_sqrt : forall nn X a, xty_ok X -> is_int (xT X) = false -> shaped X a -> each1 X a (x_sqrt X nn a) (sqrt_spec (xf X)).
Proof.
  intros nn X a HX HF Ha. apply (@k_each X HX (v_sqrt X nn) (fsqrt nn (xf X))); auto; [intros; now apply l_sqrt|]. intros v Hv. rewrite (xw_fw HX HF) in Hv. now apply sqrt_ok.
Qed.
Print Assumptions C49_sqrt.
