(** Model of the lane conversions between integers and floating point of the x86 backend:
    /repo/dpm/detail/x86/cvt.hpp (without the AVX-512 branches), native_vec_cast (utility.hpp 314-324) and the
    copy_from/copy_to of type.hpp 643-671 when source and destination element types differ but have the same size. *)
From Coq Require Import ZifyBool ZifyNat.
From Flocq Require Import Core IEEE754.BinarySingleNaN IEEE754.Binary IEEE754.Bits.
From Verif Require Import Base Cxx Spec X86Vec X86 Fp.
Open Scope Z_scope.

(** *** Conversion instructions (trusted reading of Intel's manual; default MXCSR rounding) *)
(** cvtsi2ss/sd, cvtdq2ps: an integer to the format, nearest even *)
Definition fof_int (f : fmt) (n : Z) : Z := enc f (binary_normalize _ _ (Hprec f) (Hprec_emax f) mode_NE n 0 false).
(** integer value of a float rounded in mode [md]; w-bit "integer indefinite" (2^(w-1)) for NaN, infinities and out of range *)
Definition fto_int (nn : nans) (f : fmt) (md : mode) (w x : Z) : Z :=
  let n := Btrunc _ _ (Bnearbyint _ _ (Hprec_emax f) (n1 nn f) md (dec f x)) in
  if isfin f x && (- 2 ^ (w - 1) <=? n) && (n <? 2 ^ (w - 1)) then wrap w n else 2 ^ (w - 1).
(** cvtepi32_ps; cvtps_epi32 and cvttps_epi32 *)
Definition cvtepi32_ps : vec -> vec := vmap (fun x => fof_int F32 (sgn 32 x)).
Definition cvtps_epi32 (nn : nans) : vec -> vec := vmap (fto_int nn F32 mode_NE 32).
Definition cvttps_epi32 (nn : nans) : vec -> vec := vmap (fto_int nn F32 mode_ZR 32).
(** cvtepi32_pd / cvtpd_epi32 / cvttpd_epi32 on the lanes that take part *)
Definition cvtepi32_pd : vec -> vec := vmap (fun x => fof_int F64 (sgn 32 x)).
Definition cvtpd_epi32 (nn : nans) : vec -> vec := vmap (fto_int nn F64 mode_NE 32).
Definition cvttpd_epi32 (nn : nans) : vec -> vec := vmap (fto_int nn F64 mode_ZR 32).
(** roundpd/roundps with an immediate mode *)
Definition round_fp (nn : nans) (f : fmt) (md : mode) : vec -> vec := vmap (fround nn f md).
(** _mm_blend_epi16 on 64-bit lanes; the 256-bit form applies the same immediate to each half *)
Definition blend_epi16 (imm : Z) (a b : vec) : vec :=
  join2 32 (join2 16 (blend_imm imm (split2 16 (split2 32 a)) (split2 16 (split2 32 b)))).
Definition blend_epi16_256 (imm : Z) : vec -> vec -> vec := mux2 (blend_epi16 imm).
(** _mm256_blend_epi32 on 64-bit lanes *)
Definition blend_epi32 (imm : Z) (a b : vec) : vec := join2 32 (blend_imm imm (split2 32 a) (split2 32 b)).
(** 32-bit shifts of 64-bit lanes *)
Definition srai32_64 (n : Z) (x : vec) : vec := join2 32 (srai 32 n (split2 32 x)).
Definition vadd (nn : nans) (f : fmt) : vec -> vec -> vec := vmap2 (fadd nn f).
Definition vsub (nn : nans) (f : fmt) : vec -> vec -> vec := vmap2 (fsub nn f).
(** _mm_set1_pd / _mm_set1_epi64x as many lanes as [x] *)
Definition same (c : Z) (x : vec) : vec := repeat c (length x).

(** *** cvt.hpp *)
(** 38-43, 235-246 *)
Definition cvt_u32_f32 (nn : nans) (x : vec) : vec :=
  let a := cvtepi32_ps (v_and x (same 1 x)) in
  let b := cvtepi32_ps (srli 1 x) in
  vadd nn F32 (vadd nn F32 b b) a.
Definition cvt_u32_f32_256 (c : cfg) (nn : nans) (x : vec) : vec :=
  if avx2 c then cvt_u32_f32 nn x else mux1 (cvt_u32_f32 nn) x.
(** 44-48, 230-234: offset 0x40'0000 (2^22) *)
Definition cvt_f32_u32 (nn : nans) (x : vec) : vec :=
  let offset := same 0x4a800000 x in
  v_xor (vadd nn F32 x offset) offset.
Definition exp84 : Z := 0x4530000000000000.      (* 2^84 *)
Definition exp52 : Z := 0x4330000000000000.      (* 2^52 *)
Definition adj84 : Z := 0x4530000000100000.      (* 2^84 + 2^52 *)
Definition exp67m3 : Z := 0x4438000000000000.    (* 2^67 * 3 *)
Definition adj67 : Z := 0x4438001000000000.      (* 2^67 * 3 + 2^52 *)
Definition exp51m3 : Z := 0x4338000000000000.    (* 2^51 * 3 *)
(** 62-76 *)
Definition cvt_u64_f64_sse (c : cfg) (nn : nans) (x : vec) : vec :=
  let a := v_or (srli 32 x) (same exp84 x) in
  let mask := same 0xffffffff00000000 x in
  let b := if sse41 c then blend_epi16 0xcc x (same exp52 x)
           else v_or (v_and mask (same exp52 x)) (v_andnot mask x) in
  vadd nn F64 (vsub nn F64 a (same adj84 x)) b.
(** 77-94 *)
Definition cvt_i64_f64_sse (c : cfg) (nn : nans) (x : vec) : vec :=
  let mask := same 0xffff000000000000 x in
  let a := if sse41 c then blend_epi16 0x33 (same 0 x) (srai32_64 16 x)
           else v_and (same 0xffffffff00000000 x) (srai32_64 16 x) in
  let b := if sse41 c then blend_epi16 0x88 x (same exp52 x)
           else v_or (v_and mask (same exp52 x)) (v_andnot mask x) in
  vadd nn F64 (vsub nn F64 (add_epi 64 a (same exp67m3 x)) (same adj67 x)) b.
(** 95-99 *)
Definition cvt_f64_u64_sse (nn : nans) (x : vec) : vec :=
  v_xor (vadd nn F64 x (same exp52 x)) (same exp52 x).
(** 100-104 *)
Definition cvt_f64_i64_sse (nn : nans) (x : vec) : vec :=
  sub_epi 64 (vadd nn F64 x (same exp51m3 x)) (same exp51m3 x).
(** 262-278 *)
Definition cvt_u64_f64_avx (c : cfg) (nn : nans) (x : vec) : vec :=
  if avx2 c then
    let a := v_or (srli 32 x) (same exp84 x) in
    let b := blend_epi32 0xaa x (same exp52 x) in
    vadd nn F64 (vsub nn F64 a (same adj84 x)) b
  else mux1 (cvt_u64_f64_sse c nn) x.
(** 279-300 *)
Definition cvt_i64_f64_avx (c : cfg) (nn : nans) (x : vec) : vec :=
  if avx2 c then
    let a := blend_epi32 0xaa (same 0 x) (srai32_64 16 x) in
    let b := blend_epi16_256 0x88 x (same exp52 x) in
    vadd nn F64 (vsub nn F64 (add_epi 64 a (same exp67m3 x)) (same adj67 x)) b
  else mux1 (cvt_i64_f64_sse c nn) x.
(** 301-305 *)
Definition cvt_f64_u64_avx := cvt_f64_u64_sse.
(** 306-316 *)
Definition cvt_f64_i64_avx (c : cfg) (nn : nans) (x : vec) : vec :=
  if avx2 c then cvt_f64_i64_sse nn x else mux1 (cvt_f64_i64_sse nn) x.

(** 109-115 (106-137), 318-349 and the cvt<To, From> overloads 53-60, 165-172, 251-260, 351-358: integer lanes of [esz T] bytes
    and signedness [sg] to floating point (and back), for the native width of [X] *)
Definition cvt_to_f (X : xty) (sg : bool) (nn : nans) (x : vec) : vec :=
  if (esz (xT X) =? 4)%nat then
    if sg then cvtepi32_ps x
    else if is256 X then cvt_u32_f32_256 (xc X) nn x else cvt_u32_f32 nn x
  else if is256 X then if sg then cvt_i64_f64_avx (xc X) nn x else cvt_u64_f64_avx (xc X) nn x
  else if sg then cvt_i64_f64_sse (xc X) nn x else cvt_u64_f64_sse (xc X) nn x.
Definition cvt_of_f (X : xty) (sg : bool) (nn : nans) (x : vec) : vec :=
  if (esz (xT X) =? 4)%nat then if sg then cvtps_epi32 nn x else cvt_f32_u32 nn x
  else if is256 X then if sg then cvt_f64_i64_avx (xc X) nn x else cvt_f64_u64_avx nn x
  else if sg then cvt_f64_i64_sse nn x else cvt_f64_u64_sse nn x.

(** static_cast<I>(x) of the element path (type.hpp 655, 669): truncation, undefined when the value does not fit ([conv.fpint]) *)
Definition cast_f2i (nn : nans) (f : fmt) (w x : Z) : res Z :=
  let n := Btrunc _ _ (dec f x) in
  if isfin f x && (- 2 ^ (w - 1) <=? n) && (n <? 2 ^ (w - 1)) then Ok (wrap w n) else UB.

(** *** copy_from / copy_to with a conversion on the whole-register path
    type.hpp 643-671 (vector_aligned flags, sizeof(U) == sizeof(T), U an integer type and T floating-point or the reverse),
    utility.hpp 314-324: native_vec_cast<To, From> is cvt<To, From>.  [K] is that conversion.  The element loop that
    follows is the one of [x_copy_from] and has nothing left to do. *)
Definition x_copy_from_cvt (X : xty) (K : vec -> vec) (conv : Z -> res Z) (mem : list Z) (p : nat) (d : list vec) : res (list vec) :=
  d' <- for_up 0 (dsz X) (fun j d => v <- load_vec X mem (p + j * ext X);; set d j (K v)) d;;
  for_up (dsz X * ext X) (xN X) (fun i d => x <- get mem (p + i);; v <- conv x;; xset X d i v) d'.
Definition x_copy_to_cvt (X : xty) (K : vec -> vec) (conv : Z -> res Z) (d : list vec) (mem : list Z) (p : nat) : res (list Z) :=
  mem' <- for_up 0 (dsz X) (fun j m => v <- get d j;; store_vec X m (p + j * ext X) (K v)) mem;;
  for_up (dsz X * ext X) (xN X) (fun i m => x <- xget X d i;; v <- conv x;; set m (p + i) v) mem'.
Close Scope Z_scope.
