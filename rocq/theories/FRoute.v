(** Exponent vectors of frexp, ilogb, ldexp/scalbn and scalbln: /repo/dpm/detail/x86/fmanip.hpp 34-49, 52-71, 82-95,
    105-124, 129-161, 171-180, 193-267, 289-311 and cvt.hpp 192-202, 371-390.

    [X] is the floating-point vector type, [J] the type of the exponent vector (int for frexp, ilogb, ldexp; long for
    scalbln) with the same N. Both have the same register width, except that with the ABI tag aligned_vector<N, 0> the
    type with 8-byte elements may use 256-bit and the one with 4-byte elements 128-bit registers (N = 3, 4). *)
From Coq Require Import ZifyBool ZifyNat.
From Verif Require Import Base Cxx X86Vec X86 FMath FManip.

Definition same_abi (W N : xty) : Prop :=      (* W: 8-byte elements, N: 4-byte elements *)
  xc N = xc W /\ xN N = xN W /\ esz (xT W) = 8 /\ esz (xT N) = 4 /\ is_int (xT N) = negb (is_int (xT W)) /\
  (xvs N = xvs W \/ (xvs W = 32 /\ xvs N = 16 /\ (xN W = 3 \/ xN W = 4))).

(** _mm_shuffle_ps(a, b, _MM_SHUFFLE(i3, i2, i1, i0)) on four 32-bit lanes *)
Definition shuffle_ps (i3 i2 i1 i0 : nat) (a b : vec) : vec := [nth i0 a 0%Z; nth i1 a 0%Z; nth i2 b 0%Z; nth i3 b 0%Z].
Fixpoint unpackhi_epi32 (x y : vec) : vec :=   (* on each 128-bit group *)
  match x, y with
  | _ :: _ :: a :: b :: x', _ :: _ :: c :: d :: y' => a :: c :: b :: d :: unpackhi_epi32 x' y'
  | _, _ => []
  end.
(** _mm256_permute4x64_pd(x, _MM_SHUFFLE(i3, i2, i1, i0)) *)
Definition permute4x64 (i3 i2 i1 i0 : nat) (x : vec) : vec := [nth i0 x 0%Z; nth i1 x 0%Z; nth i2 x 0%Z; nth i3 x 0%Z].

(** cvt.hpp 192-196 (128; only the low 64 bits are used by the callers), 371-377 (256) *)
Definition cvt_i64_i32 (X : xty) (e : vec) : vec :=
  if is256 X then shuffle_ps 2 0 2 0 (split2 32 (lo_half e)) (split2 32 (hi_half e))
  else shuffle_ps 2 0 2 0 (split2 32 e) (split2 32 e).
(** cvt.hpp 197-202 (128), 378-390 (256): without AVX2 std::swap(mix64[1], mix64[2]), with it permute4x64(3, 1, 2, 0) *)
Definition cvt_i64x2_i32 (X : xty) (e0 e1 : vec) : vec :=
  if is256 X then
    let mix := join2 32 (shuffle_ps 2 0 2 0 (lo_half (split2 32 e0)) (lo_half (split2 32 e1)) ++
                         shuffle_ps 2 0 2 0 (hi_half (split2 32 e0)) (hi_half (split2 32 e1))) in
    split2 32 (if avx2 (xc X) then permute4x64 3 1 2 0 mix else [nth 0 mix 0%Z; nth 2 mix 0%Z; nth 1 mix 0%Z; nth 3 mix 0%Z])
  else shuffle_ps 2 0 2 0 (split2 32 e0) (split2 32 e1).

(** frexp(__m128d, out, i) 35-42, ilogb(__m128d, out, i) 83-87: 8 bytes are stored at out64[i];
    frexp/ilogb(__m256d, ..., i) 109-116, 172-173: 16 bytes at the 128-bit slot i.
    [d] is the array of registers of the exponent vector. *)
Definition put_part (X J : xty) (i : nat) (e : vec) (d : list vec) : res (list vec) :=
  let p := i * ext X in
  v <- get d (p / ext J);;
  let o := p mod ext J in
  set d (p / ext J) (firstn o v ++ firstn (ext X) (cvt_i64_i32 X e) ++ skipn (o + ext X) v).
(** frexp 203-216, ilogb 300-310: the loops that store the exponents [es] of the native vectors of x *)
Definition put_exps (X J : xty) (es d : list vec) : res (list vec) :=
  if esz (xT X) =? 4 then Ok es
  else
    let n := dsz X in
    let pairs := if dsz J <? n then n / 2 else 0 in
    d <- for_up 0 pairs (fun p d => e0 <- get es (2 * p);; e1 <- get es (2 * p + 1);; set d p (cvt_i64x2_i32 X e0 e1)) d;;
    for_up (2 * pairs) n (fun i d => e <- get es i;; put_part X J i e d) d.
(** frexp(x, exp): [d] is the previous value of *exp; returns the fractions and the exponents *)
Definition x_frexp (X J : xty) (F : fops) (x d : list vec) : res (list vec * list vec) :=
  e <- put_exps X J (map (fun v => snd (k_frexp X F v)) x) d;;
  Ok (map (fun v => fst (k_frexp X F v)) x, e).

(** scalbn32: 53, 54-62, 130-152 *)
Definition X128 (X : xty) : xty := {| xc := xc X; xT := xT X; xvs := 16; xN := xN X |}.
Definition scalbn32 (X J : xty) (F : fops) (vx : vec) (exp : list vec) (i : nat) : res vec :=
  if esz (xT X) =? 4 then e <- get exp i;; Ok (k_scalbn X F vx e)
  else if negb (is256 X) || (is256 J && avx2 (xc X)) then
    e <- get exp (i / 2);;
    let s := srai 32 31 e in
    Ok (k_scalbn X F vx (join2 32 (if Nat.odd i then unpackhi_epi32 e s else unpacklo_epi32 e s)))
  else
    let exp := if is256 J then flat_map (fun v => [lo_half v; hi_half v]) exp else exp in
    h <- get exp (i + 1);; l <- get exp i;;
    let k := fun x e => k_scalbn (X128 X) F x (join2 32 (unpackhi_epi32 e (srai 32 31 e))) in
    Ok (k (lo_half vx) l ++ k (hi_half vx) h).
(** scalbn(x, exp) 222-241, ldexp 219-220 *)
Definition x_scalbn_v (X J : xty) (F : fops) (x exp : list vec) : res (list vec) :=
  fill (dsz X) (fun i => vx <- get x i;; scalbn32 X J F vx exp i) (zeros X).
(** scalbn64: 65-71, 154-161 *)
Definition scalbn64 (X J : xty) (F : fops) (vx : vec) (exp : list vec) (i : nat) : res vec :=
  if esz (xT X) =? 8 then e <- get exp i;; Ok (k_scalbn X F vx e)
  else if is256 X then
    h <- get exp i;; l <- get exp i;; Ok (k_scalbn X F vx (cvt_i64_i32 J l ++ cvt_i64_i32 J h))
  else if is256 J then e <- get exp i;; Ok (k_scalbn X F vx (cvt_i64_i32 J e))
  else h <- get exp (i * 2 + 1);; l <- get exp (i * 2);; Ok (k_scalbn X F vx (shuffle_ps 2 0 2 0 (split2 32 l) (split2 32 h))).
(** scalbln(x, exp) 243-267 on platforms with a 64-bit long *)
Definition x_scalbln_v (X J : xty) (F : fops) (x exp : list vec) : res (list vec) :=
  fill (dsz X) (fun i => vx <- get x i;; scalbn64 X J F vx exp i) (zeros X).
