(** Model of log, log2, log10 and log1p of the x86 backend: /repo/dpm/detail/x86/{exp.hpp,lut.hpp,log.cpp,log2.cpp,log10.cpp,log1p.cpp}.

    [fm] is DPM_HAS_FMA, [pn] is DPM_PROPAGATE_NAN, [he] is DPM_HANDLE_ERRORS (which implies [pn], config.hpp 84-87).
    Floating-point exception flags and the SVML branch are not modelled.  A table access outside the table is UB.
    Constants are given as bit patterns; the branches on test_mask are kept. *)
From Coq Require Import ZifyBool ZifyNat.
From Verif Require Import Base Cxx X86Vec X86 Fp FMath FMathProofs FManip FArith Cvt FRoute LogTab.

(** lut.hpp 28-66 (gather), 68-151 (one scalar load per lane): lut_load; the index lanes are converted to size_t *)
Definition lut_get (tab : list Z) (i : Z) : res Z :=
  if (i <? Z.of_nat (length tab))%Z then match nth_error tab (Z.to_nat i) with Some v => Ok v | None => UB end else UB.
Definition lut_load (tab : list Z) (idx : vec) : res vec := mapM (lut_get tab) idx.
(** exp.hpp 65-74: log_get_table *)
Definition log_get_table (X : xty) (nn : nans) (tab : list Z) (idx : vec) : res (vec * vec) :=
  let I := as_int X in
  let i_invc := c_shiftl I 1 idx in
  let i_logc := v_add I (ieee nn) i_invc (ifill I 1) in
  v_invc <- lut_load tab i_invc;;
  v_logc <- lut_load tab i_logc;;
  Ok (v_invc, v_logc).
(** exp.hpp 75-91: log_excepts *)
Definition log_excepts (X : xty) (pn he : bool) (nn : nans) (y x : vec) : vec :=
  let y := if pn || he then blendv X x y (isfinite_abs X x) else y in
  if he then
    let zero_mask := cmp_eq X x (zerov X) in
    let y := if test_mask X zero_mask then except_divzero X (ieee nn) false y x zero_mask else y in
    let minus_mask := cmp_lt_f X x (zerov X) in
    if test_mask X minus_mask then except_invalid X (ieee nn) y x minus_mask else y
  else y.

(** exp.hpp 93-110 (float: 0x4b000000 = 0x1p23f), 111-128 (double: 0x4330000000000000 = 0x1p52): log_normalize *)
Definition log_normalize (X : xty) (nn : nans) (x : vec) : vec :=
  let I := as_int X in
  let F := ieee nn in
  if esz (xT X) =? 4 then
    let is_subnorm := cmp_gt I (v_sub I F x (ifill I 0x800000)) (ifill I (0x7f000000 - 1)) in
    if test_mask I is_subnorm then
      let x_norm := v_mul X F x (v_fill X 0x4b000000) in
      let ix_norm := v_sub I F x_norm (ifill I (23 * 2 ^ 23)) in
      blendv I x ix_norm is_subnorm
    else x
  else
    let top16 := c_shiftr I 48 x in
    let is_subnorm := cmp_gt_l32 X (v_sub I F top16 (ifill I 0x10)) (ifill I (0x7fe0 - 1)) in
    if test_mask I is_subnorm then
      let x_norm := v_mul X F x (v_fill X 0x4330000000000000) in
      let ix_norm := v_sub I F x_norm (ifill I (52 * 2 ^ 52)) in
      blendv I x ix_norm is_subnorm
    else x.

(** cvt<float, int32_t> (cvt.hpp 54, 256) and cvt_i32_f64(cvt_i64_i32(k)) (cvt.hpp 188, 192-196, 354, 371-377) *)
Definition log_cvt (X : xty) (k : vec) : vec :=
  if esz (xT X) =? 4 then cvtepi32_ps k else cvtepi32_pd (firstn (ext X) (cvt_i64_i32 X k)).
(** the reduction shared by eval_log (exp.hpp 135-144, 159-171) and log2.cpp 22-32, 53-65:
    tmp = ix - off; i = (tmp >> (mant - bits)) & (2^bits - 1); k = tmp >> mant; z = ix - (tmp & exponent bits) *)
Definition log_off (w : Z) : Z := if (w =? 32)%Z then 0x3f330000 else 0x3fe6900900000000.
Definition log_reduce (X : xty) (nn : nans) (bits : Z) (tab : list Z) (ix : vec) : res (vec * vec * vec * vec) :=
  let I := as_int X in
  let F := ieee nn in
  let m := mant (xw X) in
  let tmp := v_sub I F ix (ifill I (log_off (xw X))) in
  let i := v_and (c_shiftr I (m - bits) tmp) (ifill I (2 ^ bits - 1)) in
  p <- log_get_table X nn tab i;;
  let k := c_ashiftr I m tmp in
  let z := v_sub I F ix (v_and tmp (ifill I ((2 ^ (xw X - m) - 1) * 2 ^ m))) in
  Ok (fst p, snd p, z, log_cvt X k).
Definition logtab (w : Z) : list Z := if (w =? 32)%Z then logtab_f32 else logtab_f64.
Definition logtab_bits (w : Z) : Z := if (w =? 32)%Z then 4 else 7.
Definition log2tab (w : Z) : list Z := if (w =? 32)%Z then log2tab_f32 else log2tab_f64.
Definition log2tab_bits (w : Z) : Z := if (w =? 32)%Z then 4 else 6.
Definition fc (X : xty) (tab : list Z) (i : nat) : vec := v_fill X (nth i tab 0%Z).
Definition fminus1 (w : Z) : Z := (2 ^ (w - 1) + fone w)%Z.

(** exp.hpp 132-155 (float), 156-186 (double): eval_log *)
Definition eval_log (X : xty) (fm : bool) (nn : nans) (ix : vec) : res vec :=
  let F := ieee nn in
  let w := xw X in
  t <- log_reduce X nn (logtab_bits w) (logtab w) ix;;
  let '(invc, logc, z, kf) := t in
  let fma := v_fmadd X fm nn in
  if esz (xT X) =? 4 then
    let r := v_fmsub X fm nn z invc (v_fill X (fone w)) in
    let y0 := fma kf (v_fill X (c_ln2 w)) logc in
    let r2 := v_mul X F r r in
    let y := fma (fc X logcoff_f32 1) r (fc X logcoff_f32 2) in
    let y := fma (fc X logcoff_f32 0) r2 y in
    Ok (fma y r2 (v_add X F y0 r))
  else
    let r := fma z invc (v_fill X (fminus1 w)) in
    let y0 := fma kf (v_fill X (c_ln2 w)) logc in
    let r2 := v_mul X F r r in
    let p := fma (fc X logcoff_f64 1) r (fc X logcoff_f64 0) in
    let y := fma (fc X logcoff_f64 3) r (fc X logcoff_f64 2) in
    let y := fma (fc X logcoff_f64 4) r2 y in
    Ok (fma (fma y r2 p) r2 (v_add X F y0 r)).
(** y = bit_andnot(cmp_eq<T>(x, c), y) *)
Definition zero_at (X : xty) (c : Z) (x y : vec) : vec := v_andnot (cmp_eq X x (v_fill X c)) y.

(** log.cpp 11-28: impl_log *)
Definition k_log (X : xty) (fm pn he : bool) (nn : nans) (x : vec) : res vec :=
  y <- eval_log X fm nn (log_normalize X nn x);;
  Ok (log_excepts X pn he nn (zero_at X (fone (xw X)) x y) x).

(** log2.cpp 13-44 (float), 45-85 (double): impl_log2 *)
Definition k_log2 (X : xty) (fm pn he : bool) (nn : nans) (x : vec) : res vec :=
  let F := ieee nn in
  let w := xw X in
  let fma := v_fmadd X fm nn in
  let ix := log_normalize X nn x in
  t <- log_reduce X nn (log2tab_bits w) (log2tab w) ix;;
  let '(invc, logc, z, kf) := t in
  let r := fma z invc (v_fill X (fminus1 w)) in
  let y :=
    if esz (xT X) =? 4 then
      let y0 := v_add X F logc kf in
      let r2 := v_mul X F r r in
      let p := fma (fc X log2coff_f32 3) r y0 in
      let y := fma (fc X log2coff_f32 1) r (fc X log2coff_f32 2) in
      fma (fma (fc X log2coff_f32 0) r2 y) r2 p
    else
      let t1 := v_mul X F r (v_fill X (c_invln2h w)) in
      let t2 := v_fmsub X fm nn r (v_fill X (c_invln2h w)) t1 in
      let t2 := fma r (v_fill X (c_invln2l w)) t2 in
      let t3 := v_add X F logc kf in
      let hi := v_add X F t3 t1 in
      let lo := v_add X F (v_sub X F t3 hi) (v_add X F t1 t2) in
      let r2 := v_mul X F r r in
      let r4 := v_mul X F r2 r2 in
      let p := fma r (fc X log2coff_f64 3) (fc X log2coff_f64 2) in
      let y := fma (fc X log2coff_f64 5) r (fc X log2coff_f64 4) in
      let y := fma r4 y (fc X log2coff_f64 0) in
      let y := fma r (fc X log2coff_f64 1) y in
      let y := fma r2 (fma r2 p y) hi in
      v_add X F lo y in
  Ok (log_excepts X pn he nn (zero_at X (fone w) x y) x).

(** log10.cpp 11-44 (float: 0x4c000000 = 0x1p25f), 45-77 (double: 0x4350000000000000 = 0x1p54; the mask compares top16 with 0x10 << 48): impl_log10 *)
Definition k_log10 (X : xty) (fm pn he : bool) (nn : nans) (x : vec) : res vec :=
  let I := as_int X in
  let F := ieee nn in
  let w := xw X in
  let m := mant w in
  let is_subnorm :=
    if esz (xT X) =? 4 then cmp_gt I (ifill I 0x800000) x
    else cmp_gt I (ifill I (0x10 * 2 ^ 48)) (c_shiftr I 48 x) in
  let '(k, ix) :=
    if test_mask I is_subnorm then
      let ix_norm := v_mul X F x (v_fill X (exp_mult w)) in
      (v_sub I F (zerov I) (v_and is_subnorm (ifill I (m + 2))), blendv I x ix_norm is_subnorm)
    else (zerov I, x) in
  let k := v_add I F k (v_sub I F (c_shiftr I m ix) (ifill I (exp_off w))) in
  let sign_k := c_shiftr I (w - 1) k in
  let ix := v_and ix (ifill I (2 ^ m - 1)) in
  let ix := v_or ix (c_shiftl I m (v_sub I F (ifill I (exp_off w)) sign_k)) in
  let y := log_cvt X (v_add I F k sign_k) in
  e <- eval_log X fm nn ix;;
  let z := v_mul X F (v_fill X (c_ivln10 w)) e in
  let z := v_fmadd X fm nn y (v_fill X (c_log10_2l w)) z in
  let y := v_fmadd X fm nn y (v_fill X (c_log10_2h w)) z in
  Ok (log_excepts X pn he nn (zero_at X (fone w) x y) x).

(** log1p.cpp 27-48: log1p_excepts *)
Definition log1p_excepts (X : xty) (pn he : bool) (nn : nans) (y x : vec) : vec :=
  let I := as_int X in
  let y := if pn || he then blendv X x y (isfinite_abs X x) else y in
  if he then
    let exp := c_shiftr I (mant (xw X)) x in
    let y := blendv X y x (cmp_eq I exp (zerov I)) in
    let zero_mask := cmp_eq X x (v_fill X (fminus1 (xw X))) in
    let y := if test_mask X zero_mask then except_divzero X (ieee nn) false y x zero_mask else y in
    let minus_mask := cmp_lt_f X x (v_fill X (fminus1 (xw X))) in
    if test_mask X minus_mask then except_invalid X (ieee nn) y x minus_mask else y
  else y.
(** log1p.cpp 50-78 (float), 79-107 (double): impl_log1p *)
Definition k_log1p (X : xty) (fm pn he : bool) (nn : nans) (x : vec) : res vec :=
  let I := as_int X in
  let F := ieee nn in
  let w := xw X in
  let m := mant w in
  let one := v_fill X (fone w) in
  let u := v_add X F x one in
  let range_mask := cmp_gt I (ifill I (if (w =? 32)%Z then 0xbe95f61a else 0xbfd2bec4)) x in
  let k := v_add I F u (ifill I (if (w =? 32)%Z then 0x4afb0d else 0x95f62 * 2 ^ 32)) in
  let k := v_sub I F (c_shiftr I m k) (ifill I (if (w =? 32)%Z then 0x7d else 0x3fd)) in
  let c_mask := cmp_gt I (zerov I) k in
  let c0 := v_sub X F one (v_sub X F u x) in
  let c1 := v_sub X F x (v_sub X F u one) in
  let c := blendv X c0 c1 c_mask in
  let exact_mask := v_or (cmp_gt I k (ifill I (m - 1))) range_mask in
  let c := v_andnot exact_mask c in
  e <- eval_log X fm nn u;;
  let y := v_add X F e (v_div_f X F c u) in
  Ok (log1p_excepts X pn he nn (zero_at X 0 x y) x).

(** exp.hpp 255-319: the user functions *)
Definition x_log (X : xty) (fm pn he : bool) (nn : nans) := vz1 X (k_log X fm pn he nn).
Definition x_log2 (X : xty) (fm pn he : bool) (nn : nans) := vz1 X (k_log2 X fm pn he nn).
Definition x_log10 (X : xty) (fm pn he : bool) (nn : nans) := vz1 X (k_log10 X fm pn he nn).
Definition x_log1p (X : xty) (fm pn he : bool) (nn : nans) := vz1 X (k_log1p X fm pn he nn).
