(** Model of the generic functions of /repo/dpm/detail/generic/math.hpp that go through an integer type:
    rint, iround, irint, itrunc, ltrunc, lltrunc (and lround, llround, llrint with the <cmath> functions spelled out).
    Floats are bit patterns, [lw] is the number of bits of [long] (64 on LP64, 32 on LLP64); long long has 64.  The rounding
    direction is the default one (to nearest even). *)
From Coq Require Import ZifyBool ZifyNat.
From Flocq Require Import Core IEEE754.BinarySingleNaN IEEE754.Binary IEEE754.Bits.
From Verif Require Import Base Cxx Generic Spec Fp Cvt.
Open Scope Z_scope.

Section R.
Context (nn : nans) (f : fmt) (lw : Z).

(** std::lround/llround/lrint/llrint: the rounded value when a w-bit signed integer holds it; otherwise the C standard leaves the
    value unspecified: [u x] is an arbitrary choice. *)
Definition std_toint (u : Z -> Z) (md : mode) (w x : Z) : Z :=
  let n := Btrunc _ _ (Bnearbyint _ _ (Hprec_emax f) (n1 nn f) md (dec f x)) in
  if isfin f x && (- 2 ^ (w - 1) <=? n) && (n <? 2 ^ (w - 1)) then wrap w n else wrap w (u x).

(** 903-911: the results of std::rint go through an array of long ([result[i] = std::rint(x[i])]: implicit conversion), and the
    constructor converts each long back to T. *)
Definition g_rint (N : nat) (x : list Z) : res (list Z) :=
  r <- fill N (fun i => v <- get x i;; cast_f2i nn f lw (fround nn f mode_NE v)) (repeat 0 N);;
  copy_from (fun l => Ok (fof_int f (sgn lw l))) N r 0 (repeat 0 N).

(** static_cast of a w-bit signed integer to a v-bit signed one *)
Definition icast (w v x : Z) : Z := wrap v (sgn w x).

(** 885-901, 922-929: arrays of long / long long *)
Definition g_lround (u : Z -> Z) (N : nat) (x : list Z) : res (list Z) :=
  from_result 0 N (fun i => v <- get x i;; Ok (std_toint u mode_NA lw v)).
Definition g_llround (u : Z -> Z) (N : nat) (x : list Z) : res (list Z) :=
  from_result 0 N (fun i => v <- get x i;; Ok (std_toint u mode_NA 64 v)).
Definition g_llrint (u : Z -> Z) (N : nat) (x : list Z) : res (list Z) :=
  from_result 0 N (fun i => v <- get x i;; Ok (std_toint u mode_NE 64 v)).

(** 933-948 iround<I>: I has [w] bits, [ll] tells whether I is long long.  [result] is a zero-initialised simd written through operator[]. *)
Definition g_iround (u : Z -> Z) (w : Z) (ll : bool) (N : nat) (x : list Z) : res (list Z) :=
  fill N (fun i => v <- get x i;;
    if w <=? lw then Ok (icast lw w (std_toint u mode_NA lw v))           (* 941 static_cast<I>(std::lround(x[i])) *)
    else if negb ll then cast_f2i nn f w (fround nn f mode_NA v)           (* 943 static_cast<I>(std::round(x[i])) *)
    else Ok (std_toint u mode_NA 64 v)) (repeat 0 N).                      (* 945 std::llround(x[i]) *)
(** 950-965 irint<I> *)
Definition g_irint (u : Z -> Z) (w : Z) (ll : bool) (N : nat) (x : list Z) : res (list Z) :=
  fill N (fun i => v <- get x i;;
    if w <=? lw then Ok (icast lw w (std_toint u mode_NE lw v))           (* 958 *)
    else if negb ll then cast_f2i nn f w (fround nn f mode_NE v)           (* 960 *)
    else Ok (std_toint u mode_NE 64 v)) (repeat 0 N).                      (* 962 *)
(** 967-975 itrunc<I>; ltrunc 977-978 and lltrunc 980-981 are itrunc<long>, itrunc<long long> *)
Definition g_itrunc (w : Z) (N : nat) (x : list Z) : res (list Z) :=
  fill N (fun i => v <- get x i;; cast_f2i nn f w (fround nn f mode_ZR v)) (repeat 0 N).
End R.
Close Scope Z_scope.
