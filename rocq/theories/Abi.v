(** Model of the ABI-tag metaprograms: dpm/detail/generic/abi.hpp and dpm/detail/x86/abi.hpp. *)
From Coq Require Import ZArith List Bool Lia.
Import ListNotations.
Local Open Scope Z_scope.

Definition SIZE_MAX : Z := 2 ^ 64 - 1.

(** ABI tags: generic/abi.hpp:15-19 [scalar], 39-44 [aligned_vector<N,Align>]. [packed_buffer<N>] is [avec N SIZE_MAX]
    (line 50) and [fixed_size<N>] is [avec N 0] (line 61). *)
Inductive tag := scalar | avec (n a : Z).
Definition packed_buffer n := avec n SIZE_MAX.
Definition fixed_size n := avec n 0.
(** [Abi::size], lines 18 and 43 *)
Definition tag_size (t : tag) : Z := match t with scalar => 1 | avec n _ => n end.

(** A value type as the metaprograms see it: its size, and whether it is an integer type, float or double
    (false e.g. for long double). *)
Record ctype := { tsize : Z; arith : bool; is_float : bool }.
(** Build: DPM_HAS_SSE2, DPM_HAS_AVX (DPM_HAS_SSE is the guard of the whole file). *)
Record build := { b_sse2 : bool; b_avx : bool }.

(** x86/abi.hpp:32-38 *)
Definition vectorizable (b : build) (T : ctype) : bool := if b_sse2 b then arith T else is_float T.
(** x86/abi.hpp:48-49 *)
Definition overload_default b T (n a minw maxw : Z) : bool :=
  vectorizable b T && ((a =? 0) && (minw / tsize T <? n) && (n <=? maxw / tsize T)).
(** x86/abi.hpp:50-51 *)
Definition overload_simd b T (n a mina maxa : Z) : bool :=
  vectorizable b T && ((1 <? n) && (mina <=? a) && (a <? maxa)).
(** x86/abi.hpp:56-57 (256) *)
Definition x86_overload_256 b T n a : bool :=
  b_avx b && (overload_simd b T n a 32 SIZE_MAX || overload_default b T n a 16 SIZE_MAX).
(** x86/abi.hpp:58-59 and 68-69 (128) *)
Definition x86_overload_128 b T n a : bool :=
  if b_avx b then overload_simd b T n a 16 32 || overload_default b T n a (tsize T) 16
  else overload_simd b T n a 16 SIZE_MAX || overload_default b T n a (tsize T) SIZE_MAX.
(** x86/abi.hpp:60-61, 70-71 *)
Definition x86_overload_any b T n a : bool := x86_overload_128 b T n a || x86_overload_256 b T n a.

(** Which class template simd<T, avec<N,A>> instantiates: x86/type.hpp:24-47 (native_data_type is chosen by
    x86_overload_128 / x86_overload_256) or the generic array (generic/type.hpp). [None]: two constrained
    specialisations match, the program is ill-formed. *)
Inductive storage := Array | Native (bytes : Z).
Definition storage_of b T (n a : Z) : option storage :=
  match x86_overload_128 b T n a, x86_overload_256 b T n a with
  | true, true => None
  | true, false => Some (Native 16)
  | false, true => Some (Native 32)
  | false, false => Some Array
  end.
(** utility.hpp:151-156 [align_data<T,N,VSize>] *)
Definition align_data (T : ctype) (n vsize : Z) : Z :=
  let m := vsize / tsize T in n / m + (if n mod m =? 0 then 0 else 1).
(** x86/type.hpp:31,36,42,47: number of native vectors *)
Definition native_data_size b T n a : option Z :=
  match storage_of b T n a with
  | Some (Native w) => Some (align_data T n w)
  | _ => None
  end.
(** x86/type.hpp:70 and 568 [alignment]; generic/type.hpp:192,493 ([el] is alignof(T)) *)
Definition simd_alignment b T (n a : Z) (el : Z) : option Z :=
  match storage_of b T n a with
  | Some (Native w) => Some (Z.max a w)
  | Some Array => Some (Z.max (if a =? SIZE_MAX then 0 else a) el)
  | None => None
  end.

(** deduce<T,N> without hints: generic/abi.hpp:73-76, x86/abi.hpp:113-118. deduce<T,1> is more specialised than the
    unconstrained deduce<T,N>; against a matching x86 specialisation it would be ambiguous ([None]), as would be two
    matching x86 specialisations. *)
Definition deduce0 b T (n : Z) : option tag :=
  match n =? 1, x86_overload_128 b T n 0, x86_overload_256 b T n 0 with
  | true, false, false => Some scalar
  | false, true, false => Some (avec n 16)
  | false, false, true => Some (avec n 32)
  | false, false, false => Some (fixed_size n)
  | _, _, _ => None
  end.
(** deduce<T,N,Abis...>: generic/abi.hpp:77-78 (a single aligned_vector hint, which is more specialised than the
    constrained specialisation of line 88), 86-89. [accept_abi] (83) is "the size is N": every simd of a known tag is
    default constructible (generic/type.hpp:496, x86/type.hpp:585). *)
Fixpoint deduce b T (n : Z) (hints : list tag) : option tag :=
  match hints with
  | [] => deduce0 b T n
  | [avec m a] => Some (avec n a)
  | h :: rest => if tag_size h =? n then Some h else deduce b T n rest
  end.

(** x86/abi.hpp:41-46 *)
Definition select_abi (T : ctype) (bytes : Z) : tag := avec (bytes / tsize T) bytes.
(** x86/abi.hpp:88-97, [None] when the type is not vectorizable (no specialisation: ill-formed) *)
Definition compatible b T : option tag := if vectorizable b T then Some (select_abi T 16) else None.
Definition native b T : option tag :=
  if vectorizable b T then Some (select_abi T (if b_avx b then 32 else 16)) else None.

(** generic/abi.hpp:100-112 [common_impl]: [seq] is the tag_sequence accumulated so far (pushed at the front, line 107),
    scalars are skipped (109), all-scalar packs give scalar (112), the end takes the maxima (104). *)
Fixpoint common_impl (seq : list (Z * Z)) (l : list tag) : tag :=
  match l with
  | scalar :: r => common_impl seq r
  | avec n a :: r => common_impl ((n, a) :: seq) r
  | [] => match seq with
          | [] => scalar
          | (n, a) :: r => avec (fold_left Z.max (map fst r) n) (fold_left Z.max (map snd r) a)
          end
  end.
(** generic/abi.hpp:122-127 *)
Definition common (l : list tag) : tag := common_impl [] l.

(** generic/type.hpp:28,41 and 30,43 *)
Definition rebind_tag b (T : ctype) (t : tag) : option tag := deduce b T (tag_size t) [t].
Definition resize_tag b (T : ctype) (n : Z) (t : tag) : option tag := deduce b T n [t].
