(** Model of the branches [if (std::is_constant_evaluated())] of the x86 vector functions: /repo/dpm/detail/x86/type.hpp 560-2026 and the same
    branch of every function in class.hpp, exp.hpp, fmanip.hpp, mbase.hpp, pow.hpp, round.hpp, trig.hpp.  All of them have the form
      packed = static_cast<simd<T, packed_buffer<N>>>(x); ... return static_cast<x86_simd>(f(packed, ...)).
    An expression that is not a constant expression (an error of the compiler) is [UB]. *)
From Verif Require Import Base Cxx Spec Generic X86Vec X86 CEval.

Section C.
Context (X : xty).
(** non-const operator[], type.hpp 684-687: [reinterpret_cast<value_alias *>(_data.data())[i]]; a reinterpret_cast is never part of a constant expression ([expr.const]) *)
Definition c_xset (d : list vec) (i : nat) (v : Z) : res (list vec) := UB.
(** copy_to, 661-672, in constant evaluation: [for (; i < size(); ++i) mem[i] = operator[](i)] with the const operator[] *)
Definition c_copy_to (x : list vec) (mem : list Z) : res (list Z) := fill (xN X) (fun i => c_xget X x i) mem.
(** copy_from, 646-657 *)
Definition c_copy_from (mem : list Z) (d : list vec) : res (list vec) := for_up 0 (xN X) (fun i d => v <- get mem i;; c_xset d i v) d.
(** conversion to packed_buffer<N>, 623-631: an array of N elements, copy_to, constructor of the portable vector (generic/type.hpp 482, 516-520) *)
Definition c_to_packed (x : list vec) : res (list Z) := b <- c_copy_to x (repeat 0%Z (xN X));; copy_from Ok (xN X) b 0 (repeat 0%Z (xN X)).
(** conversion back: generic/type.hpp 512 [simd<U, OtherAbi>{_data, element_aligned}], i.e. the x86 constructor from memory (type.hpp 604-605) *)
Definition c_from_packed (p : list Z) : res (list vec) := c_copy_from p (zeros X).
(** a vector function of one, two or three vectors whose portable version is [G] (scalar parameters are part of [G]) *)
Definition c_fun1 (G : list Z -> res (list Z)) (a : list vec) : res (list vec) := p <- c_to_packed a;; r <- G p;; c_from_packed r.
Definition c_fun2 (G : list Z -> list Z -> res (list Z)) (a b : list vec) : res (list vec) := p <- c_to_packed a;; q <- c_to_packed b;; r <- G p q;; c_from_packed r.
Definition c_fun3 (G : list Z -> list Z -> list Z -> res (list Z)) (a b c : list vec) : res (list vec) :=
  p <- c_to_packed a;; q <- c_to_packed b;; s <- c_to_packed c;; r <- G p q s;; c_from_packed r.
(** reduce, type.hpp 1414-1415, 1451-1452: reduce_impl<size>(x, op), generic/type.hpp 618-624 *)
Definition c_reduce (op : Z -> Z -> res Z) (x : list vec) : res Z := b <- c_copy_to x (repeat 0%Z (xN X));; reduce_arr (xN X) 0%Z op b.
End C.
