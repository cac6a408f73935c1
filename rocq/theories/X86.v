(** Model of the x86 backend: /repo/dpm/detail/x86/{type,transform,cmp,bitwise,addsub,muldiv,minmax,utility}.hpp.

    A simd / simd_mask on this backend is [_data], an array of [dsz X] native vectors ([list vec]); lanes past element
    N-1 are padding and may hold anything.  Only the run-time branch (std::is_constant_evaluated() == false) is modelled. *)
From Coq Require Import ZifyBool ZifyNat.
From Verif Require Import Base Cxx Generic X86Vec.

Definition is256 (X : xty) : bool := xvs X =? 32.
(** 256-bit integral operations without AVX2 are done on two 128-bit halves (the #else branches calling mux_128x2). *)
Definition muxed (X : xty) : bool := is_int (xT X) && is256 X && negb (avx2 (xc X)).
Definition zerov (X : xty) : vec := setzero (ext X).
Definition onesv (X : xty) : vec := setones (xw X) (ext X).

(** ** cmp.hpp *)
(** cmp_eq<T>: floats 12, 47, 125, 147; integers 68-83; 256-bit 175-181, 192 *)
Definition cmp_eq128 (X : xty) (a b : vec) : vec :=
  match ek (xT X) with
  | KFloat => cmp_ps (xw X) (feq (xw X)) a b
  | KInt _ =>
      if (esz (xT X) =? 8) && negb (sse41 (xc X)) then                       (* 78-82 *)
        let cmp32 := cmpeq_epi 32 (split2 32 a) (split2 32 b) in
        join2 32 (v_and cmp32 (shuffle_epi32 2 3 0 1 cmp32))
      else cmpeq_epi (xw X) a b
  end.
Definition cmp_eq (X : xty) (a b : vec) : vec :=
  if muxed X then mux2 (cmp_eq128 X) a b else cmp_eq128 X a b.
(** cmp_gt<T>: signed integers 86-101, 184-190, 194; floats 14, 49, 127, 149 *)
Definition cmp_gt128 (X : xty) (a b : vec) : vec :=
  match ek (xT X) with
  | KFloat => cmp_ps (xw X) (fun x y => flt (xw X) y x) a b
  | KInt _ =>
      if (esz (xT X) =? 8) && negb (sse41 (xc X)) then                       (* 97-99 *)
        let a32 := split2 32 a in let b32 := split2 32 b in
        let tmp := v_or (v_and (cmpeq_epi 32 a32 b32) (split2 32 (sub_epi 64 b a))) (cmpgt_epi 32 a32 b32) in
        join2 32 (shuffle_epi32 3 3 1 1 tmp)
      else cmpgt_epi (xw X) a b
  end.
Definition cmp_gt (X : xty) (a b : vec) : vec :=
  if muxed X then mux2 (cmp_gt128 X) a b else cmp_gt128 X a b.
(** Float-only comparisons: cmp_lt 16, cmp_ge 18, cmp_le 20 (and the double / 256-bit versions 51-55, 129-133, 151-155). *)
Definition cmp_lt_f (X : xty) : vec -> vec -> vec := cmp_ps (xw X) (flt (xw X)).
Definition cmp_ge_f (X : xty) : vec -> vec -> vec := cmp_ps (xw X) (fun x y => fle (xw X) y x).
Definition cmp_le_f (X : xty) : vec -> vec -> vec := cmp_ps (xw X) (fle (xw X)).
(** cmp_ne<T>: integral 217 (bit_not(cmp_eq)); float 22, 57, 135, 157 (NEQ_UQ) *)
Definition cmp_ne (X : xty) (a b : vec) : vec :=
  match ek (xT X) with
  | KFloat => cmp_ps (xw X) (fun x y => negb (feq (xw X) x y)) a b
  | KInt _ => bit_not (xw X) (cmp_eq X a b)
  end.
(** mask_eq<T>: 220-244, cmp_eq on the signed integer type of the same size *)
Definition as_int (X : xty) : xty :=
  {| xc := xc X; xT := {| esz := esz (xT X); ek := KInt true |}; xvs := xvs X; xN := xN X |}.
Definition mask_eq (X : xty) (a b : vec) : vec := cmp_eq (as_int X) a b.
(** test_mask: 33-43 (128), 169-173 (256) *)
Definition byte_signs (k : nat) (x : Z) : bool := existsb (fun j => Z.testbit x (8 * Z.of_nat j + 7)) (seq 0 k).
Definition test_mask (X : xty) (x : vec) : bool :=
  if is256 X || sse41 (xc X) then existsb (fun l => negb (l =? 0)%Z) x
  else existsb (byte_signs (esz (xT X))) x.

(** ** utility.hpp: movemask *)
(** movemask_bits_v<T>: type_fwd.hpp 40-44 *)
Definition mmbits (X : xty) : nat := if esz (xT X) =? 2 then 2 else 1.
(** movemask<T> on one register: 43, 108, 110, 258-261; 2-byte lanes use movemask_epi8, two bits per lane. *)
Definition lane_bits (X : xty) (x : Z) : list bool :=
  if esz (xT X) =? 2 then [Z.testbit x 7; Z.testbit x 15] else [Z.testbit x (xw X - 1)].
Definition movemask1 (X : xty) (x : vec) : Z := bits_Z (flat_map (lane_bits X) x).
(** 246-257: 256-bit vectors of 1- and 2-byte elements without AVX2 combine two halves. *)
Definition movemask (X : xty) (x : vec) : Z :=
  if is256 X && (esz (xT X) <=? 2) && negb (avx2 (xc X)) then
    Z.lor (Z.shiftl (movemask1 X (hi_half x)) (Z.of_nat (16 / esz (xT X) * mmbits X))) (movemask1 X (lo_half x))
  else movemask1 X x.
(** movemask_l<T>: 301-308 *)
Definition movemask_l (X : xty) (x : vec) (n : nat) : Z :=
  let bits := wrap 64 (Z.shiftl (movemask X x) (64 - Z.of_nat (ext X * mmbits X))) in
  if n <? ext X then Nat.iter (ext X - n) (fun b => wrap 64 (Z.shiftl b (Z.of_nat (mmbits X)))) bits else bits.
(** fill_bits<n>(): /repo/dpm/utility.hpp 141-147 *)
Definition fill_bits (n : nat) : Z := (2 ^ Z.of_nat n - 1)%Z.

(** ** transform.hpp: tail masking. [n : Z] is a std::size_t; [e] the number of lanes of the (sub)vector.
    The switch tables "case k: set(m x (e-k), 0 x k)" for 1 <= k < e are written as lane functions. *)
Definition in_switch (n : Z) (e : nat) : bool := ((1 <=? n) && (n <? Z.of_nat e))%Z.
Definition tail_lanes (m : Z) (n : Z) (e : nat) : vec := lanes e (fun k => if (Z.of_nat k <? n)%Z then 0%Z else m).
Definition head_lanes (m : Z) (n : Z) (e : nat) : vec := lanes e (fun k => if (Z.of_nat k <? n)%Z then m else 0%Z).
(** maskblend<T> on 128 bits: 14-38 (4 bytes), 118-165 (1), 166-197 (2), 198-213 (8) *)
Definition maskblend128 (X : xty) (a b : vec) (n : Z) : vec :=
  let e := length a in
  if in_switch n e then
    if sse41 (xc X) then
      if esz (xT X) =? 1 then blendv_epi8 1 a b (tail_lanes 128 n e)
      else blend_imm (2 ^ Z.of_nat e - 2 ^ n) a b
    else blend_bits a b (tail_lanes (ones (xw X)) n e)
  else a.
(** maskblend<T> on 256 bits: 441-469 (4, 8 bytes), 506-567 (AVX2, 1 and 2 bytes), 594-607 (no AVX2, 1 and 2 bytes) *)
Definition maskblend256 (X : xty) (a b : vec) (n : Z) : vec :=
  let e := length a in
  if esz (xT X) <=? 2 then
    if avx2 (xc X) then
      if in_switch n e then
        blendv_epi8 (esz (xT X)) a b (tail_lanes (if esz (xT X) =? 1 then 128 else 32896) n e)
      else a
    else
      let h := maskblend128 X (hi_half a) (hi_half b) (wrap 64 (n - Z.of_nat (16 / esz (xT X)))) in
      let l := maskblend128 X (lo_half a) (lo_half b) n in
      l ++ h
  else if in_switch n e then blend_imm (2 ^ Z.of_nat e - 2 ^ n) a b else a.
Definition maskblend (X : xty) (a b : vec) (n : Z) : vec :=
  if is256 X then maskblend256 X a b n else maskblend128 X a b n.
(** maskzero<T>: 39-52, 215-262; 256-bit 614-615 *)
Definition maskzero (X : xty) (x : vec) (n : Z) : vec :=
  if is256 X then maskblend X x (zerov X) n
  else if in_switch n (length x) then v_and x (head_lanes (ones (xw X)) n (length x)) else x.
(** maskone<T>: 53-65, 264-313; 256-bit 616-617 *)
Definition maskone (X : xty) (x : vec) (n : Z) : vec :=
  if is256 X then maskblend X x (onesv X) n
  else if in_switch n (length x) then v_or x (tail_lanes (ones (xw X)) n (length x)) else x.
(** blendv<T>: 67-80 (4 bytes), 315-323 (1, 2), 324-335 (8); 256-bit 471-486 (4, 8), 568-572 (AVX2 integral), 608-612 (no AVX2 integral) *)
Definition blendv128 (X : xty) (a b m : vec) : vec :=
  if sse41 (xc X) then
    if esz (xT X) <=? 2 then blendv_epi8 (esz (xT X)) a b m else blendv_sign (xw X) a b m
  else blend_bits a b m.
Definition blendv (X : xty) (a b m : vec) : vec :=
  if is256 X then
    if is_int (xT X) then
      if avx2 (xc X) then blendv_epi8 (esz (xT X)) a b m else mux3 (blendv128 X) a b m
    else blendv_sign (xw X) a b m
  else blendv128 X a b m.

(** ** type.hpp *)
(** Storage. [value[i]] is lane [i mod ext] of vector [i / ext]: operator[], 167-177 (mask), 690-700 (simd). *)
Definition xget (X : xty) (x : list vec) (i : nat) : res Z := v <- get x (i / ext X);; get v (i mod ext X).
Definition xset (X : xty) (x : list vec) (i : nat) (l : Z) : res (list vec) :=
  v <- get x (i / ext X);; v' <- set v (i mod ext X) l;; set x (i / ext X) v'.
(** const operator[] of a mask converts the lane to bool: alias.hpp 24 *)
Definition mget (X : xty) (m : list vec) (i : nat) : res bool := v <- xget X m i;; Ok (negb (v =? 0)%Z).

(** vectorize: 53-58, with the zero-initialised [result] as first argument *)
Definition zeros (X : xty) : list vec := repeat (zerov X) (dsz X).
Definition vz1 (X : xty) (f : vec -> res vec) (a : list vec) : res (list vec) :=
  fill (dsz X) (fun i => va <- get a i;; f va) (zeros X).
Definition vz2 (X : xty) (f : vec -> vec -> res vec) (a b : list vec) : res (list vec) :=
  fill (dsz X) (fun i => va <- get a i;; vb <- get b i;; f va vb) (zeros X).
Definition vz3 (X : xty) (f : vec -> vec -> vec -> res vec) (a b c : list vec) : res (list vec) :=
  fill (dsz X) (fun i => va <- get a i;; vb <- get b i;; vc <- get c i;; f va vb vc) (zeros X).

(** *** Mask constructors *)
(** 92-97: broadcast; basic_mask(bool) extends to all ones (alias.hpp 22) *)
Definition mask_broadcast (X : xty) (b : bool) : list vec := repeat (repeat (mlane (xw X) b) (ext X)) (dsz X).
(** 100: native vector *)
Definition of_native (X : xty) (v : vec) : list vec := repeat v (dsz X).
(** 113-124 (mask), 610-621 (simd): generator. [i < size(); i += native_extent, ++j] runs for j < data_size. *)
Fixpoint gen_lanes {S} (left base : nat) (gen : nat -> S -> res (Z * S)) (s : S) : res (list Z * S) :=
  match left with
  | O => Ok ([], s)
  | Datatypes.S l => ' (v, s1) <- gen base s;; ' (vs, s2) <- gen_lanes l (Datatypes.S base) gen s1;; Ok (v :: vs, s2)
  end.
Definition x_generate {S} (X : xty) (gen : nat -> S -> res (Z * S)) (d : list vec) (s : S) : res (list vec * S) :=
  for_up 0 (dsz X) (fun j st =>
    let k := Nat.min (ext X) (xN X - j * ext X) in
    ' (ls, s') <- gen_lanes k (j * ext X) gen (snd st);;
    d' <- set (fst st) j (ls ++ repeat 0%Z (ext X - k));; Ok (d', s')) (d, s).
Definition mask_generate {S} (X : xty) (gen : nat -> S -> res (bool * S)) :=
  x_generate X (fun i s => ' (b, s') <- gen i s;; Ok (mlane (xw X) b, s')).

(** *** Mask operators *)
Definition mask_and (X : xty) := vz2 X (fun a b => Ok (v_and a b)).       (* 265-278 *)
Definition mask_xor (X : xty) := vz2 X (fun a b => Ok (v_xor a b)).       (* 280-293 *)
Definition mask_or (X : xty) := vz2 X (fun a b => Ok (v_or a b)).         (* 295-308 *)
Definition mask_not (X : xty) := vz1 X (fun a => Ok (bit_not (xw X) a)).  (* 311-324 *)
Definition mask_lnot (X : xty) := mask_not X.                              (* 326 *)
(** 333-352: [res] starts as zero and is only ever and-not'ed *)
Definition mask_land (X : xty) (a b : list vec) : res (list vec) :=
  for_up 0 (dsz X) (fun i r =>
    res0 <- get r i;; va <- get a i;; vb <- get b i;;
    let res1 := v_andnot (cmp_eq X va (zerov X)) res0 in
    let res2 := v_andnot (cmp_eq X vb (zerov X)) res1 in
    set r i res2) (zeros X).
Definition mask_meq (X : xty) := vz2 X (fun a b => Ok (mask_eq X a b)).   (* 357-371 *)
Definition mask_mne (X : xty) (a b : list vec) : res (list vec) := r <- mask_meq X a b;; mask_lnot X r.  (* 374 *)
Definition mask_lor (X : xty) (a b : list vec) : res (list vec) := r <- mask_or X a b;; mask_mne X r (zeros X). (* 354 *)
(** blend: 236-262 (masks) and 747-773 (vectors) have the same body *)
Definition x_blend (X : xty) (m a b : list vec) : res (list vec) :=
  vz3 X (fun vm va vb => let inv_mask := mask_eq X vm (zerov X) in Ok (blendv X va vb inv_mask)) m a b.

(** *** Mask reductions *)
Definition tail_n (X : xty) (i : nat) : Z := Z.of_nat (xN X) - Z.of_nat (i * ext X).
Definition x_all_of (X : xty) (m : list vec) : res bool :=                (* 379-402 *)
  result <- for_up 0 (dsz X) (fun i result =>
    v <- get m i;;
    let vm := maskone X v (tail_n X i) in
    Ok (v_andnot (cmp_eq X vm (zerov X)) result)) (onesv X);;
  Ok (movemask X result =? fill_bits (ext X * mmbits X))%Z.
Definition any_mask (X : xty) (m : list vec) : res vec :=
  for_up 0 (dsz X) (fun i result =>
    v <- get m i;; Ok (v_or result (maskzero X v (tail_n X i)))) (zerov X).
(** the #ifndef DPM_HAS_SSE4_1 step before test_mask *)
Definition any_fix (X : xty) (r : vec) : vec := if sse41 (xc X) then r else cmp_ne X r (zerov X).
Definition x_any_of (X : xty) (m : list vec) : res bool :=                (* 405-430 *)
  r <- any_mask X m;; Ok (test_mask X (any_fix X r)).
Definition x_none_of (X : xty) (m : list vec) : res bool :=               (* 433-454 *)
  r <- any_mask X m;; Ok (negb (test_mask X (any_fix X r))).
Definition x_some_of (X : xty) (m : list vec) : res bool :=               (* 456-482 *)
  ' (any_m, all_m) <- for_up 0 (dsz X) (fun i st =>
    vm <- get m i;;
    let n := tail_n X i in
    let vmz := maskzero X vm n in
    let vmo := maskone X vm n in
    Ok (v_or (fst st) vmz, v_andnot (cmp_eq X vmo (zerov X)) (snd st))) (zerov X, onesv X);;
  Ok (test_mask X (any_fix X any_m) && negb (movemask X all_m =? fill_bits (ext X * mmbits X))%Z).
Definition x_reduce_count (X : xty) (m : list vec) : res nat :=           (* 486-508 *)
  r <- for_up 0 (dsz X) (fun i r =>
    v <- get m i;;
    let vm := maskzero X v (tail_n X i) in
    Ok (r + popcount64 (movemask X (cmp_ne X vm (zerov X))))) 0;;
  Ok (r / mmbits X).
(** 512-532; the loop's early return is the [Some] state *)
Definition x_reduce_min_index (X : xty) (m : list vec) : res nat :=
  r <- for_up 0 (dsz X) (fun i st =>
    match st with
    | Some _ => Ok st
    | None =>
        v <- get m i;;
        let bits := movemask X (cmp_ne X v (zerov X)) in
        if (bits =? 0)%Z then Ok None else Ok (Some (ctz64 bits / mmbits X + i * ext X))
    end) None;;
  match r with Some i => Ok i | None => UB end.                           (* 531 DPM_UNREACHABLE *)
(** 535-556; i runs from data_size-1 down to 0, j = i + 1 *)
Definition x_reduce_max_index (X : xty) (m : list vec) : res nat :=
  r <- for_up 0 (dsz X) (fun k st =>
    match st with
    | Some _ => Ok st
    | None =>
        let i := dsz X - 1 - k in let j := i + 1 in
        v <- get m i;;
        let bits := movemask_l X (cmp_ne X v (zerov X)) (xN X - i * ext X) in
        if (bits =? 0)%Z then Ok None else Ok (Some (j * ext X - 1 - clz64 bits / mmbits X))
    end) None;;
  match r with Some i => Ok i | None => UB end.

(** *** simd constructors, loads, stores *)
(** 588-593 *)
Definition x_broadcast (X : xty) (v : Z) : list vec := repeat (repeat v (ext X)) (dsz X).
(** A whole-register load / store of [ext] elements at [mem + p] (native_vec_cast for U = T: utility.hpp). *)
Definition load_vec (X : xty) (mem : list Z) (p : nat) : res vec := mapM (get mem) (seq p (ext X)).
Definition store_vec (X : xty) (mem : list Z) (p : nat) (v : vec) : res (list Z) :=
  for_up 0 (ext X) (fun k m => l <- get v k;; set m (p + k) l) mem.
(** copy_from: 644-657. [vec_path] is "the flag guarantees alignof(native_type) and sizeof(U) == sizeof(T)"; the model
    has U = T (no element conversion) on that path, [conv] is the static_cast of the element path. *)
Definition x_copy_from (X : xty) (conv : Z -> res Z) (vec_path : bool) (mem : list Z) (p : nat) (d : list vec) : res (list vec) :=
  d' <- (if vec_path then for_up 0 (dsz X) (fun j d => v <- load_vec X mem (p + j * ext X);; set d j v) d else Ok d);;
  let i0 := if vec_path then dsz X * ext X else 0 in
  for_up i0 (xN X) (fun i d => x <- get mem (p + i);; v <- conv x;; xset X d i v) d'.
(** copy_to: 658-671 *)
Definition x_copy_to (X : xty) (conv : Z -> res Z) (vec_path : bool) (d : list vec) (mem : list Z) (p : nat) : res (list Z) :=
  mem' <- (if vec_path then for_up 0 (dsz X) (fun j m => v <- get d j;; store_vec X m (p + j * ext X) v) mem else Ok mem);;
  let i0 := if vec_path then dsz X * ext X else 0 in
  for_up i0 (xN X) (fun i m => x <- xget X d i;; v <- conv x;; set m (p + i) v) mem'.
(** Conversion to packed_buffer<N>: 623-642, copies through [std::array<T, size()> buff] with vector_aligned. *)
Definition to_packed (X : xty) (x : list vec) : res (list Z) :=
  buff <- x_copy_to X Ok true x (repeat 0%Z (xN X)) 0;; copy_from Ok (xN X) buff 0 (repeat 0%Z (xN X)).
(** Conversion from packed_buffer<N>: generic/type.hpp 505-513 copies element by element ([element_aligned]).
    [d] is the indeterminate initial storage. *)
Definition of_packed (X : xty) (d : list vec) (p : list Z) : res (list vec) := x_copy_from X Ok false p 0 d.

(** *** simd operators *)
Section Ops.
Context (X : xty) (F : fops).
Let w := xw X.
(** add<T>, sub<T>: addsub.hpp 12-14, 35-54, 59-65, 88-102, 120-135 *)
Definition v_add (a b : vec) : vec :=
  match ek (xT X) with
  | KFloat => vmap2 (f_add F w) a b
  | KInt _ => if muxed X then mux2 (add_epi w) a b else add_epi w a b
  end.
Definition v_sub (a b : vec) : vec :=
  match ek (xT X) with
  | KFloat => vmap2 (f_sub F w) a b
  | KInt _ => if muxed X then mux2 (sub_epi w) a b else sub_epi w a b
  end.
(** mul<T>, div<T>: muldiv.hpp 12-52 *)
Definition v_mul (a b : vec) : vec :=
  match ek (xT X) with
  | KFloat => vmap2 (f_mul F w) a b
  | KInt _ => if muxed X then mux2 (mullo_epi w) a b else mullo_epi w a b
  end.
Definition v_div_f (a b : vec) : vec := vmap2 (f_div F w) a b.
(** negate<T>: addsub.hpp 143-146 *)
Definition v_neg (a : vec) : vec :=
  match ek (xT X) with
  | KFloat => v_xor a (repeat (2 ^ (w - 1))%Z (ext X))
  | KInt _ => v_sub (zerov X) a
  end.
Definition v_fill (b : Z) : vec := repeat b (ext X).

Definition x_neg := vz1 X (fun a => Ok (v_neg a)).                                   (* 777-790 *)
Definition x_add := vz2 X (fun a b => Ok (v_add a b)).                               (* 793-807 *)
Definition x_sub := vz2 X (fun a b => Ok (v_sub a b)).                               (* 808-822 *)
Definition x_add_s (a : list vec) (b : Z) := vz1 X (fun v => Ok (v_add v (v_fill b))) a.   (* 824-839 *)
Definition x_sub_s (a : list vec) (b : Z) := vz1 X (fun v => Ok (v_sub v (v_fill b))) a.   (* 840-855 *)
Definition x_mul_f := vz2 X (fun a b => Ok (v_mul a b)).                             (* 857-871 *)
Definition x_div_f := vz2 X (fun a b => Ok (v_div_f a b)).                           (* 872-886 *)
Definition x_mul_fs (a : list vec) (b : Z) := vz1 X (fun v => Ok (v_mul v (v_fill b))) a.  (* 888-903 *)
Definition x_div_fs (a : list vec) (b : Z) := vz1 X (fun v => Ok (v_div_f v (v_fill b))) a. (* 904-919 *)
(** integral *: 921-942.  std::is_constant_evaluated() inside [if constexpr] is always true, so
    "!is_constant_evaluated() && sizeof(T) == 2 || sizeof(T) == 4" is just sizeof(T) == 4 (with SSE4.1).
    [d] is the indeterminate storage of the fallback's result. *)
Definition mul_native : bool := sse41 (xc X) && (esz (xT X) =? 4).
Definition x_mul_i (d a b : list vec) : res (list vec) :=
  if mul_native then vz2 X (fun a b => Ok (v_mul a b)) a b
  else pa <- to_packed X a;; pb <- to_packed X b;;
       r <- simd_binary (int_scalar (ity_of (xT X))) OpMul (xN X) pa pb;; of_packed X d r.
Definition x_mul_is (d a : list vec) (b : Z) : res (list vec) :=                     (* 943-967 *)
  if mul_native then vz1 X (fun v => Ok (v_mul v (v_fill b))) a
  else pa <- to_packed X a;;
       r <- simd_binary_s (int_scalar (ity_of (xT X))) OpMul (xN X) pa b;; of_packed X d r.
Definition x_lnot := vz1 X (fun a => Ok (cmp_eq X a (zerov X))).                     (* 969-984 *)
Definition x_and := vz2 X (fun a b => Ok (v_and a b)).                               (* 986-1000 *)
Definition x_xor := vz2 X (fun a b => Ok (v_xor a b)).                               (* 1001-1015 *)
Definition x_or := vz2 X (fun a b => Ok (v_or a b)).                                 (* 1016-1030 *)
Definition x_and_s (a : list vec) (b : Z) := vz1 X (fun v => Ok (v_and v (v_fill b))) a.   (* 1032-1047 *)
Definition x_xor_s (a : list vec) (b : Z) := vz1 X (fun v => Ok (v_xor v (v_fill b))) a.   (* 1048-1063 *)
Definition x_or_s (a : list vec) (b : Z) := vz1 X (fun v => Ok (v_or v (v_fill b))) a.     (* 1064-1079 *)
(** ++x / --x: generic/type.hpp 727-730, [x = x + 1] / [x = x - 1] *)
Definition x_inc (one : Z) (a : list vec) := x_add_s a one.
Definition x_dec (one : Z) (a : list vec) := x_sub_s a one.

(** comparisons *)
Definition x_eq := vz2 X (fun a b => Ok (cmp_eq X a b)).                             (* 1174-1188 *)
Definition x_ne := vz2 X (fun a b => Ok (cmp_ne X a b)).                             (* 1189-1203 *)
Definition x_gt_f := vz2 X (fun a b => Ok (cmp_gt X a b)).                           (* 1207-1221 *)
Definition x_lt_f := vz2 X (fun a b => Ok (cmp_lt_f X a b)).                         (* 1222-1236 *)
Definition x_ge_f := vz2 X (fun a b => Ok (cmp_ge_f X a b)).                         (* 1237-1251 *)
Definition x_le_f := vz2 X (fun a b => Ok (cmp_le_f X a b)).                         (* 1252-1266 *)
(** 1269-1291: signed integers, only with SSE4.1 *)
Definition x_gt_i := vz2 X (fun a b => Ok (cmp_gt X a b)).
Definition x_lt_i (a b : list vec) := x_gt_i b a.
Definition x_ge_i (a b : list vec) := g <- x_gt_i a b;; e <- x_eq a b;; mask_or X g e.
Definition x_le_i (a b : list vec) := l <- x_lt_i a b;; e <- x_eq a b;; mask_or X l e.
End Ops.

(** *** Shifts *)
(** bit_shiftl<T>(a, b), bit_shiftr<T>(a, b) with per-lane counts.
    AVX2 (bitwise.hpp 128-142): sllv/srlv, counts >= w give 0.
    8 bytes without AVX2 (66-81): _mm_sll_epi64(a, b) shifts every lane by the low 64 bits of b (count >= 64 gives 0),
    once for each half of b, then shuffle_pd(sl, sh, 0b10) takes lane 0 of the first and lane 1 of the second. *)
Definition sllv (w : Z) : vec -> vec -> vec := vmap2 (fun x n => if (n <? w)%Z then wrap w (x * 2 ^ n) else 0%Z).
Definition srlv (w : Z) : vec -> vec -> vec := vmap2 (fun x n => if (n <? w)%Z then (x / 2 ^ n)%Z else 0%Z).
Definition sll_all (w : Z) (a : vec) (n : Z) : vec := vmap (fun x => if (n <? w)%Z then wrap w (x * 2 ^ n) else 0%Z) a.
Definition srl_all (w : Z) (a : vec) (n : Z) : vec := vmap (fun x => if (n <? w)%Z then (x / 2 ^ n)%Z else 0%Z) a.
Definition shuffle_pd_10 (a b : vec) : vec := [nth 0 a 0%Z; nth 1 b 0%Z].
Definition shiftl64 (a b : vec) : vec := shuffle_pd_10 (sll_all 64 a (nth 0 b 0%Z)) (sll_all 64 a (nth 1 b 0%Z)).
Definition shiftr64 (a b : vec) : vec := shuffle_pd_10 (srl_all 64 a (nth 0 b 0%Z)) (srl_all 64 a (nth 1 b 0%Z)).
(** only the 8-byte versions are reachable from the operators (see [shift_native]); 192-200: 256-bit without AVX2 is muxed *)
Definition v_shiftl (X : xty) (a b : vec) : vec :=
  if avx2 (xc X) then sllv (xw X) a b else if is256 X then mux2 shiftl64 a b else shiftl64 a b.
Definition v_shiftr (X : xty) (a b : vec) : vec :=
  if avx2 (xc X) then srlv (xw X) a b else if is256 X then mux2 shiftr64 a b else shiftr64 a b.
(** 1085-1171: "!is_constant_evaluated() && sizeof(T) == 4 || sizeof(T) == 8" with SSE4.1, else always false *)
Definition shift_native (X : xty) : bool := sse41 (xc X) && (esz (xT X) =? 8).
Definition x_shl (X : xty) (d a b : list vec) : res (list vec) :=                    (* 1084-1105 *)
  if shift_native X then vz2 X (fun a b => Ok (v_shiftl X a b)) a b
  else pa <- to_packed X a;; pb <- to_packed X b;;
       r <- simd_binary (int_scalar (ity_of (xT X))) OpShl (xN X) pa pb;; of_packed X d r.
Definition x_shr (X : xty) (d a b : list vec) : res (list vec) :=                    (* 1106-1127; the fallback calls << *)
  if shift_native X then vz2 X (fun a b => Ok (v_shiftr X a b)) a b
  else pa <- to_packed X a;; pb <- to_packed X b;;
       r <- simd_binary (int_scalar (ity_of (xT X))) OpShl (xN X) pa pb;; of_packed X d r.
Definition x_shl_s (X : xty) (d a : list vec) (n : Z) : res (list vec) :=            (* 1129-1150 *)
  if shift_native X then vz1 X (fun a => Ok (v_shiftl X a (v_fill X n))) a
  else pa <- to_packed X a;;
       r <- simd_binary_s (int_scalar (ity_of (xT X))) OpShl (xN X) pa n;; of_packed X d r.
Definition x_shr_s (X : xty) (d a : list vec) (n : Z) : res (list vec) :=            (* 1151-1172 *)
  if shift_native X then vz1 X (fun a => Ok (v_shiftr X a (v_fill X n))) a
  else pa <- to_packed X a;;
       r <- simd_binary_s (int_scalar (ity_of (xT X))) OpShr (xN X) pa n;; of_packed X d r.
(** bit_shiftl/r<T, N>, bit_ashiftr<T, N>: bitwise.hpp 28-44, 103-126, 170-190; 64-bit arithmetic shift 206-259 *)
Definition c_shiftl (X : xty) (n : Z) (x : vec) : vec :=
  if muxed X then mux1 (slli (xw X) n) x else slli (xw X) n x.
Definition c_shiftr (X : xty) (n : Z) (x : vec) : vec :=
  if muxed X then mux1 (srli n) x else srli n x.
Definition ashiftr64 (n : Z) (x : vec) : vec :=
  let d := split2 32 x in
  join2 32
   (if (32 <=? n)%Z then
      let xh := shuffle_epi32 3 2 3 1 (srai 32 31 d) in
      let xl := shuffle_epi32 3 2 3 1 (if (32 <? n)%Z then srai 32 (n - 32) d else d) in
      unpacklo_epi32 xl xh
    else
      let xh := shuffle_epi32 3 2 3 1 (srai 32 n d) in
      let xl := shuffle_epi32 3 2 2 0 (srli n d) in
      unpacklo_epi32 xl xh).
Definition c_ashiftr128 (X : xty) (n : Z) (x : vec) : vec :=
  if esz (xT X) =? 8 then ashiftr64 n x else srai (xw X) n x.
Definition c_ashiftr (X : xty) (n : Z) (x : vec) : vec :=
  if muxed X then mux1 (c_ashiftr128 X n) x else c_ashiftr128 X n x.
Definition x_lsl (X : xty) (n : Z) := vz1 X (fun a => Ok (c_shiftl X n a)).   (* 1296-1310 *)
Definition x_lsr (X : xty) (n : Z) := vz1 X (fun a => Ok (c_shiftr X n a)).   (* 1311-1326 *)
Definition x_asl (X : xty) (n : Z) := vz1 X (fun a => Ok (c_shiftl X n a)).   (* 1328-1343 *)
Definition x_asr (X : xty) (n : Z) := vz1 X (fun a => Ok (c_ashiftr X n a)).  (* 1344-1359 *)
(** a <<= b, a >>= b: generic/type.hpp 959-962 (vector counts: [a = a >> b] and [a = a << b]), 987-990 (scalar counts) *)
Definition x_shl_assign (X : xty) (d a b : list vec) := x_shr X d a b.
Definition x_shr_assign (X : xty) (d a b : list vec) := x_shl X d a b.
Definition x_shl_assign_s (X : xty) (d a : list vec) (n : Z) := x_shl_s X d a n.
Definition x_shr_assign_s (X : xty) (d a : list vec) (n : Z) := x_shr_s X d a n.

(** *** min / max / clamp, type.hpp 1567-2018; lane functions of minmax.hpp 12-112 *)
Definition i_min (T : ety) (a b : Z) : Z := if (ival (ity_of T) a <? ival (ity_of T) b)%Z then a else b.
Definition i_max (T : ety) (a b : Z) : Z := if (ival (ity_of T) b <? ival (ity_of T) a)%Z then a else b.
Definition v_min (X : xty) (a b : vec) : vec :=
  match ek (xT X) with KFloat => vmap2 (f_min (xw X)) a b | KInt _ => vmap2 (i_min (xT X)) a b end.
Definition v_max (X : xty) (a b : vec) : vec :=
  match ek (xT X) with KFloat => vmap2 (f_max (xw X)) a b | KInt _ => vmap2 (i_max (xT X)) a b end.
Definition x_min (X : xty) := vz2 X (fun a b => Ok (v_min X a b)).
Definition x_max (X : xty) := vz2 X (fun a b => Ok (v_max X a b)).
Definition x_minmax (X : xty) (a b : list vec) : res (list vec * list vec) :=
  l <- x_min X a b;; h <- x_max X a b;; Ok (l, h).
Definition x_clamp (X : xty) := vz3 X (fun v lo hi => Ok (v_min X (v_max X v lo) hi)).

(** *** Operators the x86 backend inherits from the generic templates
    (integral ~, /, %: generic/type.hpp 790-806, 858-864): element loop over const operator[], an
    [std::array<T, N> result], and the constructor simd(result.data(), vector_aligned), i.e. [x_copy_from] on the
    whole-register path.  [d] is the indeterminate storage of the new object. *)
Definition x_via_array1 (X : xty) (f : Z -> res Z) (d a : list vec) : res (list vec) :=
  r <- fill (xN X) (fun i => x <- xget X a i;; f x) (repeat 0%Z (xN X));; x_copy_from X Ok true r 0 d.
Definition x_via_array2 (X : xty) (f : Z -> Z -> res Z) (d a b : list vec) : res (list vec) :=
  r <- fill (xN X) (fun i => x <- xget X a i;; y <- xget X b i;; f x y) (repeat 0%Z (xN X));; x_copy_from X Ok true r 0 d.
Definition x_not (X : xty) := x_via_array1 X (cxx_not (ity_of (xT X))).
Definition x_div_i (X : xty) := x_via_array2 X (cxx_bin (ity_of (xT X)) OpDiv).
Definition x_mod_i (X : xty) := x_via_array2 X (cxx_bin (ity_of (xT X)) OpMod).
