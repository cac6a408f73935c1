(** C66: accuracy of hypot for every pair of finite numbers. *)
From Coq Require Import ZifyBool ZifyNat Reals Lra.
From Flocq Require Import Core IEEE754.BinarySingleNaN IEEE754.Binary.
From Verif Require Import Base Cxx Spec X86Vec X86 X86Lemmas X86Proofs X86Masks X86Ops X86Shift Fp FpLemmas FpOps FKern FMath FMathProofs FLane FManip FManipLanes PropX86 PropFloat PropManip PropCvt PropRound FArith PropArith FCvt Hypot HypotProofs HypotSem PropHypot PropIeee FErr ArcKern PropArc HypNum HypSplit HypAcc HypDbl HypFlt.
Set Implicit Arguments.
Open Scope R_scope.

(** *** Specification *)
Definition hypotenuse (x y : R) : R := sqrt (x * x + y * y).
(** the least positive (subnormal) number of the format *)
Definition least_positive (f : fmt) : R := match f with F32 => bpow radix2 (-149) | F64 => bpow radix2 (-1074) end.
(** [r] is a finite number within 3/2 machine epsilons (relative) plus half the least positive number of the hypotenuse,
    or it is +infinity and the hypotenuse, enlarged by 3/2 machine epsilons, is above every finite number of the format *)
Definition hypot_close (f : fmt) (x y r : Z) : Prop :=
  let H := hypotenuse (val f x) (val f y) in
  (isfin f r = true /\ Rabs (val f r - H) <= 3 / 2 * machine_eps f * H + least_positive f / 2) \/
  (r = infs f false /\ forall z, word (fw f) z -> isfin f z = true -> val f z < H * (1 + 3 / 2 * machine_eps f)).

Lemma max_value_max f z : word (fw f) z -> isfin f z = true -> val f z <= max_value f.
Proof.
  intros W F. eapply Rle_trans; [apply Rle_abs|]. rewrite (abs_val f W F). unfold max_value. rewrite nn_val by (destruct f; cbn; lia). apply mval_le. rewrite (isfin_spec W) in F. pose proof (fmag_range (f := f) z). lia.
Qed.
Lemma close_near f x y r a b : word (fw f) x -> word (fw f) y -> isfin f x = true -> isfin f y = true -> a = Z.max (fmag (fw f) x) (fmag (fw f) y) -> b = Z.min (fmag (fw f) x) (fmag (fw f) y) ->
  hyp_near f (val f a) (val f b) r -> hypot_close f x y r.
Proof.
  intros Wx Wy Fx Fy Ea Eb H. assert (Mx : (0 <= fmag (fw f) x < finf (fw f))%Z). { pose proof (fmag_range (f := f) x). rewrite (isfin_spec Wx) in Fx. lia. } assert (My : (0 <= fmag (fw f) y < finf (fw f))%Z). { pose proof (fmag_range (f := f) y). rewrite (isfin_spec Wy) in Fy. lia. }
  assert (E : hypotenuse (val f x) (val f y) = sqrt (val f a * val f a + val f b * val f b)).
  { unfold hypotenuse. f_equal. assert (Q : forall z, word (fw f) z -> isfin f z = true -> (0 <= fmag (fw f) z < finf (fw f))%Z -> (val f (fmag (fw f) z) * val f (fmag (fw f) z) = val f z * val f z)%R).
    { intros z W F M. rewrite (nn_val f M), <- (abs_val f W F). unfold Rabs. destruct (Rcase_abs _); ring. }
    rewrite <- (Q x), <- (Q y) by auto. rewrite Ea, Eb. destruct (Z.le_ge_cases (fmag (fw f) x) (fmag (fw f) y)) as [L|L]; [rewrite Z.max_r, Z.min_l by auto; ring|rewrite Z.max_l, Z.min_r by auto; ring]. }
  unfold hyp_near in H. cbv zeta in H. rewrite <- E in H. unfold hypot_close. cbv zeta. rewrite eps_u. assert (EE : eta f = least_positive f / 2). { unfold eta. replace (emin f - 1)%Z with (-1 + emin f)%Z by lia. rewrite bpow_plus. destruct f; change (bpow radix2 (-1)) with (/ 2)%R; unfold Rdiv; rewrite Rmult_comm; reflexivity. }
  destruct H as [[F B]|[-> B]]; [left|right].
  - split; auto. rewrite <- EE. lra.
  - split; auto. intros z Wz Fz. eapply Rle_lt_trans; [apply max_value_max; eauto|]. eapply Rlt_le_trans; [exact B|]. lra.
Qed.
Lemma fin_nan {f} x : word (fw f) x -> isfin f x = true -> fnan (fw f) x = false.
Proof. intros W F. rewrite (isfin_spec W) in F. unfold fnan. lia. Qed.

(** *** Theorems *)
(** float: every pair of finite numbers, subnormal ones and those whose hypotenuse overflows included, every build *)
Theorem C66_hypot_float : forall nn X fm pn a b, xty_ok X -> is_int (xT X) = false -> esz (xT X) = 4%nat -> shaped X a -> shaped X b ->
  each2 X a b (x_hypot X fm pn nn a b) (fun x y r => isfin F32 x = true -> isfin F32 y = true -> hypot_close F32 x y r).
Proof.
  intros nn X fm pn a b HX HF E4 Ha Hb. apply hyp_each; auto. rewrite (Ef4 E4). intros x y Hx Hy Fx Fy. rewrite hypf_eq by auto.
  pose proof (fin_nan Hx Fx) as Nx. pose proof (fin_nan Hy Fy) as Ny. change (fw F32) with 32%Z in *. destruct (@hia_max X HX HF x y) as [-> ->]; rewrite ?(Ew4 E4); auto.
  eapply (@close_near F32); eauto. apply hypf_near; auto; pose proof (fmag_range (f := F32) x) as Mx; pose proof (fmag_range (f := F32) y) as My; rewrite (isfin_spec (f := F32) Hx) in Fx; rewrite (isfin_spec (f := F32) Hy) in Fy; change (fw F32) with 32%Z in *; lia.
Qed.
Print Assumptions C66_hypot_float.
Example C66_hypot_float_case : xty_ok (f4 haswell) /\   (* (3, 4), (2^-149 * 3, 2^-149 * 4), (max, max), (2^127, 2^125) *)
  x_hypot (f4 haswell) true true nans0 [[0x40400000; 3; 0x7f7fffff; 0x7f000000]]%Z [[0x40800000; 4; 0x7f7fffff; 0x7e000000]]%Z = Ok [[0x40a00000; 5; 0x7f800000; 0x7f03f07b]]%Z.
Proof. split; [xok|vm_compute; reflexivity]. Qed.

(** double: every pair of finite numbers of which one is at least 2^-1042 in magnitude, or one is zero; the remaining pairs are the subject of C66_hypot_double_refuted *)
Theorem C66_hypot_double_partial : forall nn X fm pn a b, xty_ok X -> is_int (xT X) = false -> esz (xT X) = 8%nat -> shaped X a -> shaped X b ->
  each2 X a b (x_hypot X fm pn nn a b) (fun x y r => isfin F64 x = true -> isfin F64 y = true ->
    bpow radix2 (-1042) <= Rabs (val F64 x) \/ bpow radix2 (-1042) <= Rabs (val F64 y) \/ val F64 x = 0 \/ val F64 y = 0 -> hypot_close F64 x y r).
Proof.
  intros nn X fm pn a b HX HF E8 Ha Hb. apply hyp_each; auto. rewrite (Ef8 E8). intros x y Hx Hy Fx Fy HR. rewrite hypd_eq by auto.
  pose proof (fin_nan Hx Fx) as Nx. pose proof (fin_nan Hy Fy) as Ny. rewrite !(abs_val F64) in HR by auto. pose proof (@val_zero F64 x Hx Fx) as Zx. pose proof (@val_zero F64 y Hy Fy) as Zy. change (fw F64) with 64%Z in *. destruct (@hia_max X HX HF x y) as [-> ->]; rewrite ?(Ew8 E8); auto.
  eapply (@close_near F64); eauto. pose proof (fmag_range (f := F64) x) as Mx. pose proof (fmag_range (f := F64) y) as My. rewrite (isfin_spec (f := F64) Hx) in Fx. rewrite (isfin_spec (f := F64) Hy) in Fy. change (fw F64) with 64%Z in *. apply (hypd_near HF E8); try lia.
  assert (T : forall m, (0 <= m)%Z -> bpow radix2 (-1042) <= mval F64 m -> (2 ^ 32 <= m)%Z).
  { intros m Hm L. destruct (Z_lt_ge_dec m (2 ^ 32)) as [K|K]; [|lia]. exfalso. assert (E : bpow radix2 (-1042) = mval F64 (2 ^ 32)).
    { unfold mval, msig, mex, mexp, mman. cbn [mw]. change (2 ^ 32 / 2 ^ 52 =? 0)%Z with true. change (2 ^ 32 mod 2 ^ 52)%Z with (Zpower radix2 32). cbv iota. rewrite IZR_Zpower by lia. rewrite <- bpow_plus. reflexivity. }
    pose proof (@mval_lt F64 m (2 ^ 32) ltac:(lia)). lra. }
  assert (D : forall p, (2 ^ 32 <= p)%Z -> topd p <> 0%Z). { intros p L. unfold topd. assert (1 <= p / 2 ^ 32)%Z by (apply Z.div_le_lower_bound; lia). lia. }
  destruct HR as [H|[H|[H|H]]].
  - left. apply D. apply T in H; lia.
  - left. apply D. apply T in H; lia.
  - right. apply Zx in H. lia.
  - right. apply Zy in H. lia.
Qed.
Print Assumptions C66_hypot_double_partial.
Example C66_hypot_double_case : xty_ok (d2 sse2) /\   (* (3, 4), (2^-1042 * 3, 2^-1042 * 4) *)
  x_hypot (d2 sse2) false false nans0 [[0x4008000000000000; 3 * 2 ^ 32]]%Z [[0x4010000000000000; 4 * 2 ^ 32]]%Z = Ok [[0x4014000000000000; 5 * 2 ^ 32]]%Z.
Proof. split; [xok|vm_compute; reflexivity]. Qed.

(** double: two non-zero numbers of equal magnitude below 2^-1042 give a result more than 41% above the hypotenuse *)
Theorem C66_hypot_double_refuted : forall nn X fm pn a b, xty_ok X -> is_int (xT X) = false -> esz (xT X) = 8%nat -> shaped X a -> shaped X b ->
  each2 X a b (x_hypot X fm pn nn a b) (fun x y r => isfin F64 x = true -> isfin F64 y = true -> 0 < Rabs (val F64 x) < bpow radix2 (-1042) -> Rabs (val F64 y) = Rabs (val F64 x) ->
    isfin F64 r = true /\ 1.41 * hypotenuse (val F64 x) (val F64 y) < val F64 r).
Proof.
  intros nn X fm pn a b HX HF E8 Ha Hb. apply hyp_each; auto. rewrite (Ef8 E8). intros x y Hx Hy Fx Fy HR HE.
  destruct (@hypd_all X HX HF E8 nn fm pn x y Hx Hy) as (_ & _ & _ & _ & _ & _ & _ & H8). cbv zeta in H8.
  assert (T : forall z, word (fw F64) z -> isfin F64 z = true -> Rabs (val F64 z) < bpow radix2 (-1042) -> (absbits F64 z / 2 ^ 32 = 0)%Z).
  { intros z W F L. rewrite (abs_val F64 W F) in L. change (absbits F64 z) with (fmag (fw F64) z). pose proof (fmag_range (f := F64) z) as M. apply Z.div_small. split; [lia|]. destruct (Z_lt_ge_dec (fmag (fw F64) z) (2 ^ 32)) as [K|K]; [exact K|]. exfalso.
    assert (E : bpow radix2 (-1042) = mval F64 (2 ^ 32)).
    { unfold mval, msig, mex, mexp, mman. cbn [mw]. change (2 ^ 32 / 2 ^ 52 =? 0)%Z with true. change (2 ^ 32 mod 2 ^ 52)%Z with (Zpower radix2 32). cbv iota. rewrite IZR_Zpower by lia. rewrite <- bpow_plus. reflexivity. }
    pose proof (@mval_le F64 (2 ^ 32) (fmag (fw F64) z) ltac:(lia)). lra. }
  destruct (H8 (T x Hx Fx ltac:(lra)) (T y Hy Fy ltac:(lra))) as [F V]. split; auto. rewrite V, HE. unfold hypotenuse.
  assert (Q : forall v, (v * v = Rabs v * Rabs v)%R) by (intros; unfold Rabs; destruct (Rcase_abs v); ring).
  rewrite (Q (val F64 x)), (Q (val F64 y)), HE. set (h := Rabs (val F64 x)) in *. clearbody h. assert (L : sqrt (h * h + h * h) <= 1.415 * h). { rewrite <- (sqrt_square (1.415 * h)) by lra. apply sqrt_le_1_alt. nra. }
  lra.
Qed.
Print Assumptions C66_hypot_double_refuted.
Example C66_hypot_double_refuted_case : (* least positive number twice: 2, not 1 *) x_hypot (d2 haswell) true true nans0 [[1; 0x8000000000000001]]%Z [[1; 1]]%Z = Ok [[2; 2]]%Z. Proof. vm_compute; reflexivity. Qed.
