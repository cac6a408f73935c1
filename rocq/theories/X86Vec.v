(** Native SSE/AVX vectors: lists of lanes, and the intrinsics the library is built from.

    A native vector holding elements of [esz T] bytes is the list of its [vs / esz T] lanes, lowest first; every
    lane is a bit pattern in [[0, 2^(8 esz))].  The meaning given here to each intrinsic is the trusted reading of
    Intel's manual; the library's own combinations of them are modelled in the functions that follow. *)
From Coq Require Import ZifyBool ZifyNat.
From Verif Require Import Base Cxx Spec.
Open Scope Z_scope.

(** Build configuration: which of the DPM_HAS_xxx macros are defined (SSE2 is assumed, as on x86-64).
    /repo/dpm/detail/x86/*.hpp, the #ifdef branches. *)
Record cfg := { sse3 : bool; ssse3 : bool; sse41 : bool; avx : bool; avx2 : bool }.
(** A macro of a later instruction set implies the earlier ones (as compilers define them). *)
Definition cfg_ok (c : cfg) : Prop :=
  (avx2 c = true -> avx c = true) /\ (avx c = true -> sse41 c = true) /\
  (sse41 c = true -> ssse3 c = true) /\ (ssse3 c = true -> sse3 c = true).

(** Element types: int/uint 8..64, float, double. *)
Inductive kind := KInt (sg : bool) | KFloat.
Record ety := { esz : nat; ek : kind }.
Definition ety_ok (T : ety) : Prop :=
  match ek T with
  | KInt _ => esz T = 1%nat \/ esz T = 2%nat \/ esz T = 4%nat \/ esz T = 8%nat
  | KFloat => esz T = 4%nat \/ esz T = 8%nat
  end.
Definition ew (T : ety) : Z := 8 * Z.of_nat (esz T).
Definition is_int (T : ety) : bool := match ek T with KInt _ => true | KFloat => false end.
(** The C++ integer type of an integral element type. *)
Definition ity_of (T : ety) : ity := {| iw := ew T; isg := match ek T with KInt s => s | KFloat => false end |}.

(** simd<T, aligned_vector<N, A>> instantiated with native vectors of [xvs] bytes.
    /repo/dpm/detail/x86/abi.hpp (x86_overload_128 / x86_overload_256), type.hpp 20-48. *)
Record xty := { xc : cfg; xT : ety; xvs : nat; xN : nat }.
Definition xty_ok (X : xty) : Prop :=
  cfg_ok (xc X) /\ ety_ok (xT X) /\ 0 < Z.of_nat (xN X) < 2 ^ 64 /\      (* N : std::size_t *)
  (xvs X = 16%nat \/ (xvs X = 32%nat /\ avx (xc X) = true)).
(** native_extent, /repo/dpm/detail/x86/type.hpp 71 *)
Definition ext (X : xty) : nat := (xvs X / esz (xT X))%nat.
(** align_data<T, N, VSize>, /repo/dpm/utility.hpp 152-156 *)
Definition dsz (X : xty) : nat := (xN X / ext X + (if (xN X mod ext X =? 0)%nat then 0 else 1))%nat.
Definition xw (X : xty) : Z := ew (xT X).

Notation vec := (list Z).

(** *** Lanewise building blocks *)
Definition vmap (f : Z -> Z) (a : vec) : vec := map f a.
Fixpoint vmap2 {A B C} (f : A -> B -> C) (a : list A) (b : list B) : list C :=
  match a, b with x :: a', y :: b' => f x y :: vmap2 f a' b' | _, _ => [] end.
Fixpoint vmap3 {A B C D} (f : A -> B -> C -> D) (a : list A) (b : list B) (c : list C) : list D :=
  match a, b, c with x :: a', y :: b', z :: c' => f x y z :: vmap3 f a' b' c' | _, _, _ => [] end.
Definition lanes (e : nat) (f : nat -> Z) : vec := map f (seq 0 e).

(** all-ones lane / all-zeros lane *)
Definition ones (w : Z) : Z := 2 ^ w - 1.
Definition mlane (w : Z) (b : bool) : Z := if b then ones w else 0.

(** _mm_setzero / cmpeq(x, x): /repo/dpm/detail/x86/utility.hpp 12-33, 144-172 *)
Definition setzero (e : nat) : vec := repeat 0 e.
Definition setones (w : Z) (e : nat) : vec := repeat (ones w) e.

(** bit_and, bit_or, bit_xor, bit_andnot (~a & b), bit_not: /repo/dpm/detail/x86/bitwise.hpp 11-26, 89-101, 144-168, 273 *)
Definition v_and := vmap2 Z.land.
Definition v_or := vmap2 Z.lor.
Definition v_xor := vmap2 Z.lxor.
Definition v_andnot := vmap2 (fun a b => Z.ldiff b a).
Definition bit_not (w : Z) (x : vec) : vec := v_xor x (setones w (length x)).

(** Two 128-bit halves of a 256-bit vector; mux_128x2, /repo/dpm/detail/x86/utility.hpp 122-142 *)
Definition lo_half (x : vec) : vec := firstn (length x / 2) x.
Definition hi_half (x : vec) : vec := skipn (length x / 2) x.
Definition mux1 (f : vec -> vec) (a : vec) : vec := f (lo_half a) ++ f (hi_half a).
Definition mux2 (f : vec -> vec -> vec) (a b : vec) : vec :=
  f (lo_half a) (lo_half b) ++ f (hi_half a) (hi_half b).
Definition mux3 (f : vec -> vec -> vec -> vec) (a b c : vec) : vec :=
  f (lo_half a) (lo_half b) (lo_half c) ++ f (hi_half a) (hi_half b) (hi_half c).

(** Reinterpretation of 2w-bit lanes as w-bit lanes and back (std::bit_cast between vector types). *)
Fixpoint split2 (w : Z) (x : vec) : vec :=
  match x with [] => [] | a :: x' => (a mod 2 ^ w) :: (a / 2 ^ w) :: split2 w x' end.
Fixpoint join2 (w : Z) (x : vec) : vec :=
  match x with a :: b :: x' => (a + 2 ^ w * b) :: join2 w x' | _ => [] end.

(** _mm_shuffle_epi32(x, _MM_SHUFFLE(i3,i2,i1,i0)) on each 128-bit group of four 32-bit lanes. *)
Fixpoint shuffle_epi32 (i3 i2 i1 i0 : nat) (x : vec) : vec :=
  match x with
  | a :: b :: c :: d :: x' =>
    let q := [a; b; c; d] in
    nth i0 q 0 :: nth i1 q 0 :: nth i2 q 0 :: nth i3 q 0 :: shuffle_epi32 i3 i2 i1 i0 x'
  | _ => []
  end.
(** _mm_unpacklo_epi32 on each 128-bit group *)
Fixpoint unpacklo_epi32 (x y : vec) : vec :=
  match x, y with
  | a :: b :: _ :: _ :: x', c :: d :: _ :: _ :: y' => a :: c :: b :: d :: unpacklo_epi32 x' y'
  | _, _ => []
  end.

(** Integer lane comparisons (_mm_cmpeq_epiN, _mm_cmpgt_epiN) *)
Definition cmpeq_epi (w : Z) : vec -> vec -> vec := vmap2 (fun x y => mlane w (x =? y)).
Definition cmpgt_epi (w : Z) : vec -> vec -> vec := vmap2 (fun x y => mlane w (sgn w x >? sgn w y)).
(** _mm_add_epiN / _mm_sub_epiN / _mm_mullo_epiN *)
Definition add_epi (w : Z) : vec -> vec -> vec := vmap2 (fun x y => wrap w (x + y)).
Definition sub_epi (w : Z) : vec -> vec -> vec := vmap2 (fun x y => wrap w (x - y)).
Definition mullo_epi (w : Z) : vec -> vec -> vec := vmap2 (fun x y => wrap w (x * y)).
(** _mm_slli/_mm_srli/_mm_srai_epiN with a constant count *)
Definition slli (w n : Z) : vec -> vec := vmap (fun x => wrap w (x * 2 ^ n)).
Definition srli (n : Z) : vec -> vec := vmap (fun x => x / 2 ^ n).
Definition srai (w n : Z) : vec -> vec := vmap (fun x => wrap w (sgn w x / 2 ^ n)).

(** _mm_blendv_ps/pd: lane of b where the sign bit of the mask lane is set. *)
Definition blendv_sign (w : Z) : vec -> vec -> vec -> vec :=
  vmap3 (fun a b m => if Z.testbit m (w - 1) then b else a).
(** _mm_blendv_epi8 on one lane made of [k] bytes. *)
Fixpoint blend_bytes (k : nat) (a b m : Z) : Z :=
  match k with
  | O => 0
  | S k' => (if Z.testbit m 7 then b mod 256 else a mod 256) + 256 * blend_bytes k' (a / 256) (b / 256) (m / 256)
  end.
Definition blendv_epi8 (k : nat) : vec -> vec -> vec -> vec := vmap3 (blend_bytes k).
(** or(andnot(m, a), and(m, b)) *)
Definition blend_bits (a b m : vec) : vec := v_or (v_andnot m a) (v_and m b).
(** _mm_blend_ps/pd/epi16 with an immediate: lane k of b where bit k of imm is set. *)
Definition blend_imm (imm : Z) (a b : vec) : vec :=
  vmap3 (fun k x y => if Z.testbit imm (Z.of_nat k) then y else x) (seq 0 (length a)) a b.

(** *** Bit masks (std::size_t) *)
Fixpoint bits_Z (l : list bool) : Z :=
  match l with [] => 0 | b :: l' => Z.b2z b + 2 * bits_Z l' end.
(** std::popcount, std::countr_zero, std::countl_zero of a 64-bit value *)
Definition popcount64 (x : Z) : nat := length (filter (fun i => Z.testbit x (Z.of_nat i)) (seq 0 64)).
Definition ctz64 (x : Z) : nat :=
  match find (fun i => Z.testbit x (Z.of_nat i)) (seq 0 64) with Some i => i | None => 64%nat end.
Definition clz64 (x : Z) : nat :=
  match find (fun i => Z.testbit x (Z.of_nat (63 - i))) (seq 0 64) with Some i => i | None => 64%nat end.

(** *** Floating-point comparisons on bit patterns.
    [mw] mantissa bits, total width [w]; IEEE-754 comparison predicates as performed by _mm_cmpXX_ps/pd. *)
Definition mant (w : Z) : Z := if w =? 32 then 23 else 52.
Definition fmag (w x : Z) : Z := x mod 2 ^ (w - 1).
Definition fsign (w x : Z) : bool := 2 ^ (w - 1) <=? x.
Definition finf (w : Z) : Z := 2 ^ (w - 1) - 2 ^ mant w.
Definition fnan (w x : Z) : bool := finf w <? fmag w x.
Definition fkey (w x : Z) : Z := if fsign w x then - fmag w x else fmag w x.
Definition feq (w x y : Z) : bool := negb (fnan w x) && negb (fnan w y) && (fkey w x =? fkey w y).
Definition flt (w x y : Z) : bool := negb (fnan w x) && negb (fnan w y) && (fkey w x <? fkey w y).
Definition fle (w x y : Z) : bool := negb (fnan w x) && negb (fnan w y) && (fkey w x <=? fkey w y).
Definition cmp_ps (w : Z) (f : Z -> Z -> bool) : vec -> vec -> vec := vmap2 (fun x y => mlane w (f x y)).

(** The hardware's float arithmetic, one lane: parameters of the model (any functions). *)
Record fops := { f_add : Z -> Z -> Z -> Z; f_sub : Z -> Z -> Z -> Z; f_mul : Z -> Z -> Z -> Z; f_div : Z -> Z -> Z -> Z }.

(** _mm_min_ps/pd: a < b ? a : b (second operand if unordered or equal); _mm_max: a > b ? a : b *)
Definition f_min (w a b : Z) : Z := if flt w a b then a else b.
Definition f_max (w a b : Z) : Z := if flt w b a then a else b.
Close Scope Z_scope.
