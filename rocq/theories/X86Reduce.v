(** Model of the horizontal reductions of the x86 backend:
    /repo/dpm/detail/x86/transform.hpp 105-116, 345-371, 409-431, 488-505, 574-591, 651-664 and type.hpp 1369-1562. *)
From Coq Require Import ZifyBool ZifyNat.
From Verif Require Import Base Cxx Generic X86Vec X86.

(** Lane selection: the shuffles below all copy lanes of one vector ([idx] lists the source lane of each result lane). *)
Definition pick (idx : list nat) (v : vec) : vec := map (fun i => nth i v 0%Z) idx.
(** _mm_movehl_ps(a, b) = [b2; b3; a2; a3] *)
Definition movehl (a b : vec) : vec := [nth 2 b 0; nth 3 b 0; nth 2 a 0; nth 3 a 0]%Z.
(** _mm_shuffle_epi8 with a constant selector; on 2-byte lanes it acts on the bytes. *)
Definition shuffle_epi8 (k : nat) (idx : list nat) (v : vec) : vec :=
  if k =? 1 then pick idx v else join2 8 (pick idx (split2 8 v)).
(** _mm256_permute2f128(v, v, 0b1000'0001): low half := high half of v, high half := 0 *)
Definition permute2f128_81 (v : vec) : vec := hi_half v ++ repeat 0%Z (length v / 2).
(** selectors of _mm_set_epi8(15,...,8,15,...,8) etc., listed from byte 0 upwards (lines 412-430) *)
Definition sel8 : list nat := seq 8 8 ++ seq 8 8.
Definition sel4 : list nat := seq 4 4 ++ seq 4 4 ++ seq 4 4 ++ seq 4 4.
Definition sel2 : list nat := concat (repeat [2; 3] 8).
Definition sel1 : list nat := repeat 1 16.

(** reduce<T>(V v, Op op): horizontal reduction of one vector. *)
Definition hreduce (X : xty) (op : vec -> vec -> vec) (v : vec) : Z :=
  let lane0 (x : vec) := nth 0 x 0%Z in
  if is256 X then
    if esz (xT X) =? 8 then                                        (* 498-504 (double), 583-591 (integral) *)
      let b := op v (permute2f128_81 v) in
      lane0 (op b (pick [1; 1; 3; 3] b))                           (* unpackhi_pd / unpackhi_epi64 (b, b) *)
    else                                                           (* 488-497 (float), 574-582 (integral) *)
      let b := op v (permute2f128_81 v) in
      let b := op b (pick [1; 1; 3; 3; 5; 5; 7; 7] b) in           (* shuffle(3, 3, 1, 1) *)
      lane0 (op b (pick [2; 2; 3; 3; 6; 6; 7; 7] b))               (* unpackhi_ps / unpackhi_epi32 (b, b) *)
  else if esz (xT X) =? 8 then lane0 (op v (pick [1; 1] v))        (* 345-350, 365-371 *)
  else if esz (xT X) =? 4 then                                     (* 105-116, 351-364 *)
    let a := pick [1; 1; 3; 3] v in                                (* shuffle(3, 3, 1, 1) or movehdup *)
    let b := op v a in
    lane0 (op b (movehl a b))
  else if esz (xT X) =? 2 then                                     (* 421-431 *)
    let b := op v (shuffle_epi8 2 sel8 v) in
    let b := op b (shuffle_epi8 2 sel4 b) in
    wrap 16 (lane0 (op b (shuffle_epi8 2 sel2 b)))
  else                                                             (* 409-420 *)
    let b := op v (shuffle_epi8 1 sel8 v) in
    let b := op b (shuffle_epi8 1 sel4 b) in
    let b := op b (shuffle_epi8 1 sel2 b) in
    wrap 8 (lane0 (op b (shuffle_epi8 1 sel1 b))).
(** reduce<T, N>(data, idt, op): 651-664, the vertical loop. [None] is the uninitialised [res] before the first round. *)
Definition vreduce (X : xty) (op : vec -> vec -> vec) (idt : vec) (data : list vec) : res (option vec) :=
  for_up 0 (dsz X) (fun j st =>
    let i := j * ext X in
    v <- get data j;;
    let v := if xN X <? i + ext X then maskblend X v idt (Z.of_nat (xN X) - Z.of_nat i) else v in
    Ok (Some (match st with None => v | Some r => op r v end))) None.
Definition reduce_data (X : xty) (op : vec -> vec -> vec) (idt : vec) (data : list vec) : res Z :=
  r <- vreduce X op idt data;;
  match r with Some v => Ok (hreduce X op v) | None => UB end.
(** type.hpp 1388-1404: without AVX2, 256-bit storage is reduced as 128-bit vectors (reinterpret_cast). *)
Definition to128 (X : xty) : xty := {| xc := xc X; xT := xT X; xvs := 16; xN := xN X |}.
Definition split128 (data : list vec) : list vec := flat_map (fun v => [lo_half v; hi_half v]) data.
Definition red_as128 (X : xty) : bool := is256 X && negb (avx2 (xc X)).
(** [op X], [idt X] stand for op<T> and the identity vector of type V. *)
Definition reduce_with (X : xty) (op : xty -> vec -> vec -> vec) (idt : Z) (data : list vec) : res Z :=
  if red_as128 X then
    let Y := to128 X in reduce_data Y (op Y) (repeat idt (ext Y)) (split128 data)
  else reduce_data X (op X) (repeat idt (ext X)) data.
(** There is no reduce<T>(__m256i, op) for 1- and 2-byte T (with AVX2): those instantiations do not compile. *)
Definition reduce_compiles (X : xty) : bool := negb (is256 X && avx2 (xc X) && (esz (xT X) <=? 2)).

(** identities: type.hpp 1371-1386 *)
Definition one_of (T : ety) : Z :=
  match ek T with KInt _ => 1 | KFloat => if (esz T =? 4)%nat then 127 * 2 ^ 23 else 1023 * 2 ^ 52 end%Z.
Definition max_of (T : ety) : Z :=
  match ek T with
  | KInt true => 2 ^ (ew T - 1) - 1 | KInt false => 2 ^ ew T - 1 | KFloat => finf (ew T) - 1
  end%Z.
Definition lowest_of (T : ety) : Z :=
  match ek T with
  | KInt true => 2 ^ (ew T - 1) | KInt false => 0 | KFloat => 2 ^ (ew T - 1) + (finf (ew T) - 1)
  end%Z.
Section R.
Context (F : fops).
Definition reduce_add (X : xty) := reduce_with X (fun Y => v_add Y F) 0%Z.
Definition reduce_mul (X : xty) := reduce_with X (fun Y => v_mul Y F) (one_of (xT X)).
Definition reduce_min (X : xty) := reduce_with X v_min (max_of (xT X)).
Definition reduce_max (X : xty) := reduce_with X v_max (lowest_of (xT X)).
Definition reduce_and (X : xty) := reduce_with X (fun _ => v_and) (ones (xw X)).
Definition reduce_xor (X : xty) := reduce_with X (fun _ => v_xor) 0%Z.
Definition reduce_or (X : xty) := reduce_with X (fun _ => v_or) 0%Z.
(** generic/type.hpp 618-624 [reduce_impl<N>(simd, op)]: copy_to a buffer with vector_aligned, then the array reduction *)
Definition reduce_impl (X : xty) (g : Z -> Z -> res Z) (x : list vec) : res Z :=
  buff <- x_copy_to X Ok true x (repeat 0%Z (xN X)) 0;; reduce_arr (xN X) 0%Z g buff.

(** The functor passed to reduce(): std::plus, std::multiplies, std::bit_and, std::bit_xor, std::bit_or or another. *)
Inductive rop := RPlus | RMul | RAnd | RXor | ROr | ROther (g : Z -> Z -> res Z).
(** What a functor computes when called with two scalars (only used by [reduce_impl]). *)
Definition scalar_op (X : xty) (o : rop) (a b : Z) : res Z :=
  let T := ity_of (xT X) in
  match o, ek (xT X) with
  | RPlus, KFloat => Ok (f_add F (xw X) a b) | RPlus, KInt _ => cxx_bin T OpAdd a b
  | RMul, KFloat => Ok (f_mul F (xw X) a b) | RMul, KInt _ => cxx_bin T OpMul a b
  | RAnd, _ => cxx_bin T OpAnd a b | RXor, _ => cxx_bin T OpXor a b | ROr, _ => cxx_bin T OpOr a b
  | ROther g, _ => g a b
  end.
(** reduce(x, op), sizeof(T) >= 4: 1408-1442. For an integral T and a functor none of the branches handles, control
    reaches the end of the function. *)
Definition x_reduce4 (X : xty) (o : rop) (x : list vec) : res Z :=
  match o with
  | RPlus => reduce_add X x
  | RMul => if negb (is_int (xT X)) then reduce_mul X x
            else if sse41 (xc X) && (esz (xT X) =? 4) then reduce_mul X x else UB
  | RAnd => if is_int (xT X) then reduce_and X x else reduce_impl X (scalar_op X o) x
  | RXor => if is_int (xT X) then reduce_xor X x else reduce_impl X (scalar_op X o) x
  | ROr => if is_int (xT X) then reduce_or X x else reduce_impl X (scalar_op X o) x
  | ROther g => if is_int (xT X) then UB else reduce_impl X g x
  end.
(** sizeof(T) <= 2 with SSSE3: 1443-1465; without it the generic reduce (generic/type.hpp 1098) *)
Definition x_reduce2 (X : xty) (o : rop) (x : list vec) : res Z :=
  if ssse3 (xc X) then
    match o with
    | RPlus => reduce_add X x
    | RMul => if esz (xT X) =? 2 then reduce_mul X x else reduce_impl X (scalar_op X o) x
    | RAnd => reduce_and X x
    | RXor => reduce_xor X x
    | ROr => reduce_or X x
    | ROther g => reduce_impl X g x
    end
  else reduce_impl X (scalar_op X o) x.
Definition x_reduce (X : xty) (o : rop) (x : list vec) : res Z :=
  if 4 <=? esz (xT X) then x_reduce4 X o x else x_reduce2 X o x.

(** reduce_min / reduce_max: 1468-1562. Where there is no x86 overload the generic one (generic/type.hpp 1102-1105)
    calls reduce(x, lambda), which resolves to the x86 reduce above. *)
Definition has_reduce_minmax (X : xty) : bool :=
  match ek (xT X) with
  | KFloat => true
  | KInt sg =>
      if sse41 (xc X) then esz (xT X) <? 8
      else ssse3 (xc X) && ((negb sg && (esz (xT X) =? 1)) || (sg && (esz (xT X) =? 2)))
  end.
Definition x_reduce_min (X : xty) (x : list vec) : res Z :=
  if has_reduce_minmax X then reduce_min X x
  else x_reduce X (ROther (fun a b => Ok (if (ival (ity_of (xT X)) b <? ival (ity_of (xT X)) a)%Z then b else a))) x.
Definition x_reduce_max (X : xty) (x : list vec) : res Z :=
  if has_reduce_minmax X then reduce_max X x
  else x_reduce X (ROther (fun a b => Ok (if (ival (ity_of (xT X)) a <? ival (ity_of (xT X)) b)%Z then b else a))) x.
End R.
