(** Model of two paths of the x86 backend not covered by X86.v:
    - the branches [if (std::is_constant_evaluated())] of operator[] and of the mask reductions, /repo/dpm/detail/x86/type.hpp 168-174, 381-545, 688-694;
    - the generic math functions (/repo/dpm/detail/generic/math.hpp) called with an x86 vector, as happens for every function that has no x86 overload
      (exp, exp2, expm1, pow, cbrt, fmod, remainder, the hyperbolic functions, erf, erfc, tgamma, lgamma, lerp, ... without SVML). *)
From Coq Require Import ZifyBool ZifyNat.
From Verif Require Import Base Cxx Spec Generic X86Vec X86 GMath.

Section C.
Context (X : xty).
(** const operator[] in constant evaluation: [native_bit_cast<std::array<value_alias, native_extent>>(_data[i / native_extent])[i]].
    The lane index is i, not i % native_extent.  An access outside the array makes the expression not constant (an error): [UB]. *)
Definition c_xget (x : list vec) (i : nat) : res Z := v <- get x (i / ext X);; get v i.
Definition c_mget (m : list vec) (i : nat) : res bool := v <- c_xget m i;; Ok (negb (v =? 0)%Z).

Definition c_all_of (m : list vec) : res bool := for_up 0 (xN X) (fun i r => b <- c_mget m i;; Ok (r && b)) true.      (* 381-387 *)
Definition c_any_of (m : list vec) : res bool := for_up 0 (xN X) (fun i r => b <- c_mget m i;; Ok (r || b)) false.     (* 408-414 *)
Definition c_none_of (m : list vec) : res bool := r <- c_any_of m;; Ok (negb r).                                       (* 436-437 *)
(** 460-461 [any_of(mask) && !all_of(mask)] *)
Definition c_some_of (m : list vec) : res bool := a <- c_any_of m;; if a : bool then l <- c_all_of m;; Ok (negb l) else Ok false.
Definition c_reduce_count (m : list vec) : res nat := for_up 0 (xN X) (fun i r => b <- c_mget m i;; Ok (r + Nat.b2n b)) 0.  (* 489-495 *)
(** 514-518 *)
Fixpoint c_find_up (left i : nat) (m : list vec) : res nat :=
  match left with
  | O => Ok (xN X)
  | S l => b <- c_mget m i;; if b : bool then Ok i else c_find_up l (S i) m
  end.
Definition c_reduce_min_index (m : list vec) : res nat := c_find_up (xN X) 0 m.
(** 537-541: [for (i = N; --i != 0;) if (mask[i]) return i; return N;] -- [i] is the value before the decrement *)
Fixpoint c_find_down (i : nat) (m : list vec) : res nat :=
  match i with
  | O => Ok (xN X)   (* N = 0 does not occur (it would wrap around) *)
  | S i' => if i' =? 0 then Ok (xN X) else b <- c_mget m i';; if b : bool then Ok i' else c_find_down i' m
  end.
Definition c_reduce_max_index (m : list vec) : res nat := c_find_down (xN X) m.

(** A generic loop over x86 vectors at run time: operator[] on the arguments, an array of size() elements, and the constructor
    from [result.data()] with vector_aligned, i.e. whole-register loads from that array. *)
Definition gx1 (zero : Z) (g : Z -> Z) (x : list vec) : res (list vec) :=
  r <- fill (xN X) (fun i => v <- xget X x i;; Ok (g v)) (repeat zero (xN X));; x_copy_from X Ok true r 0 (zeros X).
Definition gx2 (zero : Z) (g : Z -> Z -> Z) (a b : list vec) : res (list vec) :=
  r <- fill (xN X) (fun i => u <- xget X a i;; v <- xget X b i;; Ok (g u v)) (repeat zero (xN X));; x_copy_from X Ok true r 0 (zeros X).
Definition gx3 (zero : Z) (g : Z -> Z -> Z -> Z) (a b c : list vec) : res (list vec) :=
  r <- fill (xN X) (fun i => u <- xget X a i;; v <- xget X b i;; w <- xget X c i;; Ok (g u v w)) (repeat zero (xN X));; x_copy_from X Ok true r 0 (zeros X).
End C.
