(** Model of the rounding functions of the x86 backend: /repo/dpm/detail/x86/round.hpp and trunc_sse2 of cvt.hpp.

    The rounding mode is the default (nearest, ties to even); exception flags, the AVX-512 and the SVML branches are not modelled.
    mask_domain (round.hpp 19-28) returns its second argument: the macro it tests is misspelled (DPMDPM_HANDLE_ERRORS). *)
From Coq Require Import ZifyBool ZifyNat.
From Flocq Require Import IEEE754.BinarySingleNaN.
From Verif Require Import Base Cxx X86Vec X86 Fp FMath FMathProofs FManip FRoute Cvt.

(** roundps/roundpd are available: SSE4.1, or a 256-bit vector (AVX) *)
Definition native_round (X : xty) : bool := is256 X || sse41 (xc X).
(** _mm_cvttps_epi32 / _mm_cvttpd_epi32 and back *)
Definition cvtt32 (X : xty) (nn : nans) (x : vec) : vec := if esz (xT X) =? 4 then cvttps_epi32 nn x else cvttpd_epi32 nn x.
Definition of32 (X : xty) (x : vec) : vec := if esz (xT X) =? 4 then cvtepi32_ps x else cvtepi32_pd x.
Definition v_tx (X : xty) (nn : nans) (x : vec) : vec := of32 X (cvtt32 X nn x).

(** ceil: 31-41, 64-74, 280, 372 *)
Definition k_ceil (X : xty) (nn : nans) (x : vec) : vec :=
  if native_round X then round_fp nn (xf X) mode_UP x
  else let tx := v_tx X nn x in v_add X (ieee nn) tx (v_and (cmp_ps (xw X) (flt (xw X)) tx x) (v_fill X (fone (xw X)))).
(** floor: 42-52, 75-85, 281, 373 *)
Definition k_floor (X : xty) (nn : nans) (x : vec) : vec :=
  if native_round X then round_fp nn (xf X) mode_DN x
  else let tx := v_tx X nn x in v_sub X (ieee nn) tx (v_and (cmp_ps (xw X) (fun a b => flt (xw X) b a) tx x) (v_fill X (fone (xw X)))).

(** cvt.hpp 139-163: trunc_sse2, two 64-bit lanes; with SSE3 _mm_moveldup_ps, without _mm_shuffle_ps(3, 3, 1, 1) *)
Definition srl64 (n x : Z) : Z := if (n <? 64)%Z then (x / 2 ^ n)%Z else 0%Z.
Definition trunc_sse2 (c : cfg) (x : vec) : vec :=
  let e := srli 52 x in
  let e := v_and e (same 0x7ff x) in
  let e := sub_epi 64 e (same 0x3ff x) in
  let e := add_epi 64 e (same 12 x) in
  let small_e := cmpgt_epi 32 (split2 32 (same 12 x)) (split2 32 e) in
  let small_e := join2 32 (if sse3 c then shuffle_epi32 2 2 0 0 small_e else shuffle_epi32 3 3 1 1 small_e) in
  let minus_one := same (2 ^ 64 - 1) x in
  let shift := v_or (v_andnot small_e e) (v_and small_e (same 1 x)) in
  let sh := vmap (srl64 (nth 1 shift 0%Z)) minus_one in
  let sl := vmap (srl64 (nth 0 shift 0%Z)) minus_one in
  let shift := [nth 0 sl 0%Z; nth 1 sh 0%Z] in
  v_andnot (v_andnot (same 0 x) shift) x.
(** trunc: 53-62, 86-95, 282, 374 *)
Definition k_trunc (X : xty) (nn : nans) (x : vec) : vec :=
  if native_round X then round_fp nn (xf X) mode_ZR x
  else if esz (xT X) =? 4 then v_tx X nn x else trunc_sse2 (xc X) x.

(** rint: 173-188, 250-265, 361, 430; x_offset is 2^23 (float) or 2^52 (double).  The last line of the double version selects
    tmp in both cases. *)
Definition rint_offset (w : Z) : Z := if (w =? 32)%Z then 0x4b000000 else 0x4330000000000000.
Definition k_rint (X : xty) (nn : nans) (x : vec) : vec :=
  if native_round X then round_fp nn (xf X) mode_NE x
  else
    let sign_x := masksign X x in
    let x_offset := v_fill X (rint_offset (xw X)) in
    let abs_x := v_xor x sign_x in
    let tmp_mask := cmp_ps (xw X) (fun a b => fle (xw X) b a) abs_x x_offset in
    let tmp := v_or (v_sub X (ieee nn) (v_add X (ieee nn) abs_x x_offset) x_offset) sign_x in
    v_or (v_andnot tmp_mask tmp) (v_and tmp_mask (if esz (xT X) =? 4 then x else tmp)).
(** nearbyint: 190-200, 267-277, 283, 375 *)
Definition k_nearbyint := k_rint.

(** round: 142-158, 228-244, 346-351, 416-421; off is the predecessor of 1/2 *)
Definition pred_half (w : Z) : Z := if (w =? 32)%Z then 0x3effffff else 0x3fdfffffffffffff.
Definition near2 (w : Z) : Z := if (w =? 32)%Z then 0x3fffffff else 0x3fffffffffffffff.
Definition k_round (X : xty) (nn : nans) (x : vec) : vec :=
  let F := ieee nn in
  let sign := masksign X x in
  let off := v_or sign (v_fill X (pred_half (xw X))) in
  if is256 X then round_fp nn (xf X) mode_ZR (if esz (xT X) =? 4 then v_and x off else v_add X F x off)
  else if sse41 (xc X) then round_fp nn (xf X) mode_ZR (v_add X F x off)
  else
    let tx := v_tx X nn x in
    let rem := v_mul X F (v_sub X F x tx) (v_fill X (near2 (xw X))) in
    v_add X F tx (v_tx X nn rem).

(** user functions ceil 463-476, floor 478-491, trunc 493-506, nearbyint 508-521, round 524-537, rint 586-599 *)
Definition x_ceil (X : xty) (nn : nans) := vz1 X (fun x => Ok (k_ceil X nn x)).
Definition x_floor (X : xty) (nn : nans) := vz1 X (fun x => Ok (k_floor X nn x)).
Definition x_trunc (X : xty) (nn : nans) := vz1 X (fun x => Ok (k_trunc X nn x)).
Definition x_rint (X : xty) (nn : nans) := vz1 X (fun x => Ok (k_rint X nn x)).
Definition x_nearbyint (X : xty) (nn : nans) := vz1 X (fun x => Ok (k_nearbyint X nn x)).
Definition x_round (X : xty) (nn : nans) := vz1 X (fun x => Ok (k_round X nn x)).

(** *** Integer results *)
(** irint<int>(float vector): rint<int32_t> 156, 353 *)
Definition x_irint32 (X : xty) (nn : nans) := vz1 X (fun x => Ok (cvtps_epi32 nn x)).
(** iround<int>(float vector): round<int32_t> 113-121, 304-318.  The 256-bit version compiles with AVX2 only. *)
Definition k_iround32 (X : xty) (nn : nans) (x : vec) : vec :=
  let F := ieee nn in
  let ix := cvttps_epi32 nn x in
  let tx := cvtepi32_ps ix in
  let rem := v_mul X F (v_sub X F x tx) (v_fill X (near2 32)) in
  add_epi 32 ix (cvttps_epi32 nn rem).
Definition x_iround32 (X : xty) (nn : nans) := vz1 X (fun x => Ok (k_iround32 X nn x)).

(** rint<long>: float 157-171, 354-363 (sign extension of cvtps_epi32 into two registers; the 256-bit version compiles with
    AVX2 only), double 249, 429.  lrint 604-624, llrint 626-646; lround 540-560 and llround 562-582 call rint too (443-444).
    [J] is simd<long, N, A>; register r of x is written to result_data + (r * from_extent) / to_extent. *)
Definition lrint_put (X J : xty) (nn : nans) (r : nat) (x : vec) (d : list vec) : res (list vec) :=
  if esz (xT X) =? 4 then
    let tmp := cvtps_epi32 nn x in
    let s := srai 32 31 tmp in
    let p := r * ext X / ext J in
    if is256 X then
      let ih := unpackhi_epi32 tmp s in
      let il := unpacklo_epi32 tmp s in
      d <- set d p (join2 32 (lo_half il ++ lo_half ih));; set d (p + 1) (join2 32 (hi_half il ++ hi_half ih))
    else
      d <- set d p (join2 32 (unpacklo_epi32 tmp s));; set d (p + 1) (join2 32 (unpackhi_epi32 tmp s))
  else set d (r * ext X / ext J) (cvt_of_f X true nn x).
Definition x_lrint (X J : xty) (nn : nans) (x : list vec) : res (list vec) :=
  for_up 0 (dsz X) (fun r d => v <- get x r;; lrint_put X J nn r v d) (repeat (zerov J) (dsz J)).
Definition x_llrint := x_lrint.
Definition x_lround := x_lrint.
Definition x_llround := x_lrint.
