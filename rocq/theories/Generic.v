(** Model of the generic backend, /repo/dpm/detail/generic/type.hpp.
    A [simd<T, Abi>] of size N is its [_data] array (a list of length N), a [simd_mask<T, Abi>] is its
    [bool _data[N]] array.  Template parameters become ordinary arguments; [N] is [size()]. *)
From Verif Require Import Base Cxx.

(** ** Constructors, loads and stores *)

(** type.hpp:214-218 (mask) and 516-520 (simd): [copy_from(mem, flags)].
    [conv] is the [static_cast<value_type>]; [p] is the position of the pointer in the memory block;
    [d] is the previous content of [_data]. The flags are ignored by the code. *)
Definition copy_from {A B} (conv : A -> res B) (N : nat) (mem : list A) (p : nat) (d : list B) : res (list B) :=
  for_up 0 N (fun i d => v <- (x <- get mem (p + i);; conv x);; set d i v) d.
(** type.hpp:221-226, 523-528: [copy_to(mem, flags)]. *)
Definition copy_to {A B} (conv : A -> res B) (N : nat) (d : list A) (mem : list B) (p : nat) : res (list B) :=
  for_up 0 N (fun i m => v <- (x <- get d i;; conv x);; set m (p + i) v) mem.
(** type.hpp:229-234, 531-536: masked [copy_from]. *)
Definition copy_from_mask {A B} (conv : A -> res B) (N : nat) (mem : list A) (p : nat) (m : list bool) (d : list B) : res (list B) :=
  for_up 0 N (fun i d => c <- get m i;;
    if c then v <- (x <- get mem (p + i);; conv x);; set d i v else Ok d) d.
(** type.hpp:236-241, 538-543: masked [copy_to]. *)
Definition copy_to_mask {A B} (conv : A -> res B) (N : nat) (d : list A) (mem : list B) (p : nat) (m : list bool) : res (list B) :=
  for_up 0 N (fun i mm => c <- get m i;;
    if c then v <- (x <- get d i;; conv x);; set mm (p + i) v else Ok mm) mem.

(** type.hpp:197, 499: broadcasting constructor, [std::fill_n(_data, size(), value)].
    [d] is the (indeterminate) initial content. *)
Definition broadcast {A} (N : nat) (v : A) (d : list A) : res (list A) :=
  for_up 0 N (fun i d => set d i v) d.

(** type.hpp:82-90 with 200, 502: generator constructor; [gen] is called with 0, 1, ... and may have state. *)
Fixpoint generate_n {A S} (n I : nat) (gen : nat -> S -> res (A * S)) (d : list A) (s : S) : res (list A * S) :=
  match n with
  | O => Ok (d, s)
  | Datatypes.S n' =>
      ' (v, s') <- gen I s;; d' <- set d I v;; generate_n n' (Datatypes.S I) gen d' s'
  end.
Definition generate {A S} (N : nat) (gen : nat -> S -> res (A * S)) (d : list A) (s : S) := generate_n N 0 gen d s.

(** type.hpp:243-244, 545-546: [operator[]]. *)
Definition index_get {A} (d : list A) (i : nat) : res A := get d i.
Definition index_set {A} (d : list A) (i : nat) (v : A) : res (list A) := set d i v.

(** The functions below build a zeroed [std::array result], fill it in a loop, and return
    [{result.data(), aligned}], i.e. construct by [copy_from] (with a fresh [_data]). *)
Definition from_result {A} (zero : A) (N : nat) (f : nat -> res A) : res (list A) :=
  r <- fill N f (repeat zero N);; copy_from Ok N r 0 (repeat zero N).

(** ** simd_mask operators, type.hpp:300-399 *)
Inductive mask_un := MBitNot (* ~ 301 *) | MPlus (* + 338 *) | MNeg (* - 341 *) | MNot (* ! 374 *).
Inductive mask_bin := MAnd (* & 310 *) | MOr (* | 319 *) | MXor (* ^ 328 *) | MLAnd (* && 355 *) | MLOr (* || 364 *)
                    | MEq (* == 383 *) | MNe (* != 392 *).
Inductive mask_asg := MAndA (* &= 345 *) | MOrA (* |= 348 *) | MXorA (* ^= 351 *).

Definition mask_unary (o : mask_un) (N : nat) (x : list bool) : res (list bool) :=
  match o with
  | MBitNot => from_result false N (fun i => v <- get x i;; Ok (bool_bitnot v))       (* 301-307 *)
  | MPlus => Ok x                                                                       (* 338 *)
  | MNeg => from_result false N (fun i => v <- get x i;; Ok (bool_bitnot v))          (* 341: ~x *)
  | MNot => from_result false N (fun i => v <- get x i;; Ok (negb v))                 (* 374-380 *)
  end.
Definition mask_binary (o : mask_bin) (N : nat) (a b : list bool) : res (list bool) :=
  let body := match o with
    | MAnd => andb           (* 315 a[i] && b[i] *)
    | MOr => orb             (* 324 a[i] || b[i] *)
    | MXor => bool_bitxor    (* 333 a[i] ^ b[i] *)
    | MLAnd => andb          (* 360 *)
    | MLOr => orb            (* 369 *)
    | MEq => Bool.eqb        (* 388 *)
    | MNe => fun x y => negb (Bool.eqb x y) (* 397 *)
    end in
  from_result false N (fun i => x <- get a i;; y <- get b i;; Ok (body x y)).
(** 345-351: [a = a & b] etc. Returns the new value of [a]. *)
Definition mask_assign (o : mask_asg) (N : nat) (a b : list bool) : res (list bool) :=
  mask_binary (match o with MAndA => MAnd | MOrA => MOr | MXorA => MXor end) N a b.

(** ** blend, type.hpp:290-296 (mask) and 687-693 (simd) *)
Definition blend {A} (zero : A) (N : nat) (m : list bool) (a b : list A) : res (list A) :=
  from_result zero N (fun i => c <- get m i;; if c then get a i else get b i).

(** ** simd_mask reductions, type.hpp:403-462 *)
Definition all_of (N : nat) (m : list bool) : res bool :=            (* 404-410 *)
  for_up 0 N (fun i r => b <- get m i;; Ok (r && b)) true.
Definition any_of (N : nat) (m : list bool) : res bool :=            (* 413-419 *)
  for_up 0 N (fun i r => b <- get m i;; Ok (r || b)) false.
Definition none_of (N : nat) (m : list bool) : res bool := r <- any_of N m;; Ok (negb r).   (* 422 *)
Definition some_of (N : nat) (m : list bool) : res bool :=           (* 425-435 *)
  ' (any_true, all_true) <-
    for_up 0 N (fun i s => b <- get m i;; Ok (fst s || b, snd s && b)) (false, true);;
  Ok (any_true && negb all_true).
Definition reduce_count (N : nat) (m : list bool) : res nat :=       (* 439-445 *)
  for_up 0 N (fun i r => b <- get m i;; Ok (r + Nat.b2n b)) 0.
(** 448-453: forward search with early return. [left] iterations remain, next index [i]. *)
Fixpoint find_up (left i : nat) (m : list bool) (dflt : nat) : res nat :=
  match left with
  | O => Ok dflt
  | S l => b <- get m i;; if b then Ok i else find_up l (S i) m dflt
  end.
Definition reduce_min_index (N : nat) (m : list bool) : res nat := find_up N 0 m N.
(** 456-461: [for (i = size(); i-- > 0;) if (mask[i]) return i; return size();] *)
Fixpoint find_down (i : nat) (m : list bool) (dflt : nat) : res nat :=
  match i with
  | O => Ok dflt
  | S i' => b <- get m i';; if b then Ok i' else find_down i' m dflt
  end.
Definition reduce_max_index (N : nat) (m : list bool) : res nat := find_down N m N.

(** Scalar versions, type.hpp:148-165. *)
Definition all_of_s (x : bool) := x.
Definition any_of_s (x : bool) := x.
Definition none_of_s (x : bool) := negb x.
Definition some_of_s (x : bool) := false.
Definition reduce_count_s (x : bool) := Nat.b2n x.
Definition reduce_min_index_s (x : bool) := 0.
Definition reduce_max_index_s (x : bool) := 0.

(** ** shuffle, type.hpp:65-70, 123-136, 272-287 (mask), 669-684 (simd) *)
(** 65-70 [is_sequential<1, i, Is...>]. *)
Fixpoint is_sequential (i : nat) (l : list nat) : bool :=
  match l with
  | [] => false
  | [x] => x =? i
  | x :: l' => (x =? i) && is_sequential (i + 1) l'
  end.
(** 123-136 [shuffle_impl<J, I, Is...>]: recursion first, then [to[J] = from[I]]. *)
Fixpoint shuffle_impl {A} (J : nat) (l : list nat) (from to : list A) : res (list A) :=
  match l with
  | [] => Ok to
  | i :: l' => to' <- shuffle_impl (J + 1) l' from to;; v <- get from i;; set to' J v
  end.
(** 272-287, 669-684. [result_t::size() = 1 + sizeof...(Is)] (simd_abi::deduce_t). [N] is the size of [x].
    An empty index list is ill-formed (the template needs at least [I]); modelled as [UB]. *)
Definition shuffle {A} (zero : A) (N : nat) (is : list nat) (x : list A) : res (list A) :=
  match is with
  | [] => UB
  | i0 :: Is =>
      if is_sequential 0 is && (length is =? N) then Ok x
      else if forallb (fun j => j =? i0) Is
           then v <- get x i0;; broadcast (length is) v (repeat zero (length is))
           else shuffle_impl 0 is x (repeat zero (length is))
  end.

(** ** simd operators, type.hpp:698-1052 *)
Section Ops.
  Context (T : scalar).
  Notation E := (elt T).
  Definition sres (N : nat) (f : nat -> res E) : res (list E) := from_result (sc_zero T) N f.

  (** Vector-vector: + 734, - 743, * 784, / 793, % 802, & 868, | 877, ^ 886, << 941, >> 950. *)
  Definition simd_binary (o : binop) (N : nat) (a b : list E) : res (list E) :=
    sres N (fun i => x <- get a i;; y <- get b i;; sc_bin T o x y).
  (** Vector-scalar: + 759, - 768, * 821, / 830, % 839, & 905, | 914, ^ 923. *)
  Definition simd_binary_s (o : binop) (N : nat) (a : list E) (b : E) : res (list E) :=
    sres N (fun i => x <- get a i;; sc_bin T o x b).
  (** Scalar shift counts: << 966-972, >> 975-981. *)
  Definition simd_shift_s (left : bool) (N : nat) (a : list E) (n : Z) : res (list E) :=
    sres N (fun i => x <- get a i;; sc_shift T left x n).
  (** Compound assignment, vector-vector: [a = a op b]; += 752, -= 755, *= 811, /= 814, %= 817,
      &= 895, |= 898, ^= 901, and 958-962 where [<<=] is written [a = a >> b] and [>>=] is [a = a << b]. *)
  Definition simd_assign (o : binop) (N : nat) (a b : list E) : res (list E) :=
    simd_binary (match o with OpShl => OpShr | OpShr => OpShl | o => o end) N a b.
  (** Compound assignment, vector-scalar: 777-780, 848-854, 932-938. *)
  Definition simd_assign_s (o : binop) (N : nat) (a : list E) (b : E) : res (list E) := simd_binary_s o N a b.
  (** Compound assignment, scalar count: >>= 984, <<= 987. *)
  Definition simd_shift_assign_s (left : bool) (N : nat) (a : list E) (n : Z) : res (list E) := simd_shift_s left N a n.

  (** Unary: + 698, - 701-707, ~ 858-864. *)
  Definition simd_plus (x : list E) : res (list E) := Ok x.
  Definition simd_neg (N : nat) (x : list E) : res (list E) := sres N (fun i => v <- get x i;; sc_neg T v).
  Definition simd_not (N : nat) (x : list E) : res (list E) := sres N (fun i => v <- get x i;; sc_not T v).
  (** ++x 727: [x = x + 1]; --x 730: [x = x - 1]. *)
  Definition simd_preinc (N : nat) (x : list E) : res (list E) := simd_binary_s OpAdd N x (sc_one T).
  Definition simd_predec (N : nat) (x : list E) : res (list E) := simd_binary_s OpSub N x (sc_one T).
  (** x++ 711-716, x-- 719-724: returns (result, new x). *)
  Definition simd_postinc (N : nat) (x : list E) : res (list E * list E) :=
    let tmp := x in x' <- simd_preinc N x;; Ok (tmp, x').
  Definition simd_postdec (N : nat) (x : list E) : res (list E * list E) :=
    let tmp := x in x' <- simd_predec N x;; Ok (tmp, x').
  (** ! 991-997 *)
  Definition simd_lnot (N : nat) (x : list E) : res (list bool) :=
    from_result false N (fun i => v <- get x i;; Ok (sc_lnot T v)).
  (** == 1000, <= 1009, >= 1018, < 1027, > 1036, != 1045. *)
  Definition simd_cmp (o : cmpop) (N : nat) (a b : list E) : res (list bool) :=
    from_result false N (fun i => x <- get a i;; y <- get b i;; Ok (sc_cmp T o x y)).

  (** ** min / max / clamp, type.hpp:1160-1241 *)
  (** std::min(a,b) is [b < a ? b : a]; std::max(a,b) is [a < b ? b : a]. *)
  Definition std_min (a b : E) : E := if sc_cmp T CLt b a then b else a.
  Definition std_max (a b : E) : E := if sc_cmp T CLt a b then b else a.
  (** std::clamp(v,lo,hi): [v < lo ? lo : hi < v ? hi : v], undefined when [hi < lo]. *)
  Definition std_clamp (v lo hi : E) : res E :=
    if sc_cmp T CLt hi lo then UB
    else Ok (if sc_cmp T CLt v lo then lo else if sc_cmp T CLt hi v then hi else v).
  Definition simd_min (N : nat) (a b : list E) : res (list E) :=          (* 1160-1166 *)
    sres N (fun i => x <- get a i;; y <- get b i;; Ok (std_min x y)).
  Definition simd_max (N : nat) (a b : list E) : res (list E) :=          (* 1169-1175 *)
    sres N (fun i => x <- get a i;; y <- get b i;; Ok (std_max x y)).
  Definition simd_min_s (N : nat) (a : list E) (b : E) : res (list E) :=  (* 1179-1185 *)
    sres N (fun i => x <- get a i;; Ok (std_min x b)).
  Definition simd_max_s (N : nat) (a : list E) (b : E) : res (list E) :=  (* 1188-1194 *)
    sres N (fun i => x <- get a i;; Ok (std_max x b)).
  Definition simd_clamp (N : nat) (x lo hi : list E) : res (list E) :=    (* 1225-1231 *)
    sres N (fun i => v <- get x i;; l <- get lo i;; h <- get hi i;; std_clamp v l h).
  Definition simd_clamp_s (N : nat) (x : list E) (lo hi : E) : res (list E) := (* 1234-1240 *)
    sres N (fun i => v <- get x i;; std_clamp v lo hi).

  (** std::minmax takes [const T&] and returns a pair of references. [a[i]] on a const vector is a
      prvalue (type.hpp:546), whose lifetime ends with the declaration [const auto [min, max] = ...];
      the structured bindings then name references to dead temporaries (1203, 1216). *)
  Inductive ref := RTemp (v : E) | RVar (v : E).
  Definition rval (r : ref) : E := match r with RTemp v => v | RVar v => v end.
  (** reading a reference after the full expression that created it *)
  Definition deref_later (r : ref) : res E := match r with RTemp _ => UB | RVar v => Ok v end.
  Definition std_minmax (a b : ref) : ref * ref :=
    if sc_cmp T CLt (rval b) (rval a) then (b, a) else (a, b).
  Definition simd_minmax_gen (N : nat) (ra : nat -> res ref) (rb : nat -> res ref) : res (list E * list E) :=
    for_up 0 N (fun i r =>
        x <- ra i;; y <- rb i;;
        let '(mn, mx) := std_minmax x y in
        vn <- deref_later mn;; vx <- deref_later mx;;
        r0 <- set (fst r) i vn;; r1 <- set (snd r) i vx;; Ok (r0, r1))
      (repeat (sc_zero T) N, repeat (sc_zero T) N).
  Definition simd_minmax (N : nat) (a b : list E) : res (list E * list E) :=     (* 1198-1208 *)
    simd_minmax_gen N (fun i => x <- get a i;; Ok (RTemp x)) (fun i => y <- get b i;; Ok (RTemp y)).
  Definition simd_minmax_s (N : nat) (a : list E) (b : E) : res (list E * list E) :=  (* 1211-1221 *)
    simd_minmax_gen N (fun i => x <- get a i;; Ok (RTemp x)) (fun _ => Ok (RVar b)).
End Ops.

(** ** Reductions, type.hpp:596-624, 1098-1124 *)
(** 597-617 [reduce_impl(std::array<T, N>, op)]. Recursion is on the static array size; [fuel] bounds it
    and [UB] on exhaustion is excluded by [reduce] passing the size. *)
Fixpoint reduce_arr {A} (fuel : nat) (zero : A) (op : A -> A -> res A) (data : list A) : res A :=
  match fuel with
  | O => UB
  | S f =>
      let N := length data in
      if N =? 1 then get data 0
      else if negb (N =? 2) then
        let nb := N - N / 2 in
        let na := N / 2 in
        a <- fill na (fun i => get data 0) (repeat zero na);;               (* 608-609: a[i] = data[0] *)
        b <- fill nb (fun i => get data (na + i)) (repeat zero nb);;        (* 610-611: b[i] = data[j] *)
        ra <- reduce_arr f zero op a;; rb <- reduce_arr f zero op b;;
        op ra rb                                                            (* 613: array of two *)
      else x <- get data 0;; y <- get data 1;; op x y
  end.
(** 618-624 and 1098 [reduce(x, op)]: copy to a buffer, then reduce it. *)
Definition reduce {A} (zero : A) (N : nat) (op : A -> A -> res A) (x : list A) : res A :=
  buff <- copy_to Ok N x (repeat zero N) 0;; reduce_arr N zero op buff.
Definition reduce_min (T : scalar) N x := reduce (sc_zero T) N (fun a b => Ok (std_min T a b)) x.   (* 1102 *)
Definition reduce_max (T : scalar) N x := reduce (sc_zero T) N (fun a b => Ok (std_max T a b)) x.   (* 1105 *)
Definition hadd (T : scalar) N x := reduce (sc_zero T) N (sc_bin T OpAdd) x.   (* 1111 *)
Definition hmul (T : scalar) N x := reduce (sc_zero T) N (sc_bin T OpMul) x.   (* 1114 *)
Definition hand (T : scalar) N x := reduce (sc_zero T) N (sc_bin T OpAnd) x.   (* 1118 *)
Definition hxor (T : scalar) N x := reduce (sc_zero T) N (sc_bin T OpXor) x.   (* 1121 *)
Definition hor (T : scalar) N x := reduce (sc_zero T) N (sc_bin T OpOr) x.     (* 1124 *)

(** ** Casts, type.hpp:92-121, 210-211, 512-513, 1131-1153 *)
(** 107-121 [copy_cast] between vectors of the same size N through a buffer of the destination type. *)
Definition copy_cast {A B} (conv : A -> res B) (zero : B) (N : nat) (from : list A) (to : list B) : res (list B) :=
  buff <- copy_to conv N from (repeat zero N) 0;; copy_from Ok N buff 0 to.
(** 1131-1146 [simd_cast], [static_simd_cast]: zero-initialised result, then [copy_cast]. *)
Definition simd_cast {A B} (conv : A -> res B) (zero : B) (N : nat) (x : list A) : res (list B) :=
  copy_cast conv zero N x (repeat zero N).
(** 210-211, 512-513 conversion operators and 467/1150 [to_fixed_size]: construct from [_data]. *)
Definition convert {A B} (conv : A -> res B) (zero : B) (N : nat) (x : list A) : res (list B) :=
  copy_from conv N x 0 (repeat zero N).

(** ** Constant shifts, type.hpp:627-649, 1056-1092 *)
Open Scope Z_scope.
(** 627-633 [lsr_impl] for unsigned T. [T{-1}] is read as the all-ones value (the narrowing in the braces is
    ill-formed; this is what compilers accepting it with a warning compute). [T{-1} >> N] is promoted. *)
Definition lsr_impl_u (t : ity) (n x : Z) : res Z :=
  let ones := 2 ^ iw t - 1 in
  c <- cxx_shift_val (promote t) false ones n;;
  if c =? ones
  then r <- cxx_shift_val (promote t) false x n;; top <- cxx_shift_val (promote t) true 1 (iw t - 1);;
       Ok (of_val t (Z.land r top))
  else r <- cxx_shift_val (promote t) false x n;; Ok (of_val t r).
(** 634-641 [lsr_impl] for signed T. *)
Definition lsr_impl_s (t : ity) (n x : Z) : res Z :=
  c <- cxx_shift_val (promote t) false (-1) n;;
  if c =? -1 then lsr_impl_u {| iw := iw t; isg := false |} n x
  else r <- cxx_shift_val (promote t) false (ival t x) n;; Ok (of_val t r).
Definition lsr_impl (t : ity) (n x : Z) : res Z := if isg t then lsr_impl_s t n x else lsr_impl_u t n x.
(** 642-649 [asr_impl] (signed T only, asr requires signed_integral). *)
Definition asr_impl (t : ity) (n x : Z) : res Z :=
  c <- cxx_shift_val (promote t) false (-1) n;;
  if negb (c =? -1)
  then if ival t x <? 0
       then r <- cxx_shift_val (promote t) false (Z.lnot (ival t x)) n;; Ok (of_val t (Z.lnot r))
       else r <- cxx_shift_val (promote t) false (ival t x) n;; Ok (of_val t r)
  else r <- cxx_shift_val (promote t) false (ival t x) n;; Ok (of_val t r).
Close Scope Z_scope.
Definition simd_lsl (t : ity) (n : Z) (N : nat) (x : list Z) : res (list Z) :=   (* 1057-1063 *)
  from_result 0%Z N (fun i => v <- get x i;; cxx_shift t true v n).
Definition simd_lsr (t : ity) (n : Z) (N : nat) (x : list Z) : res (list Z) :=   (* 1066-1072 *)
  from_result 0%Z N (fun i => v <- get x i;; lsr_impl t n v).
Definition simd_asl (t : ity) (n : Z) (N : nat) (x : list Z) : res (list Z) :=   (* 1076-1082 *)
  from_result 0%Z N (fun i => v <- get x i;; cxx_shift t true v n).
Definition simd_asr (t : ity) (n : Z) (N : nat) (x : list Z) : res (list Z) :=   (* 1085-1091 *)
  from_result 0%Z N (fun i => v <- get x i;; asr_impl t n v).
