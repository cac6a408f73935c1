(** Model of the generic math functions, /repo/dpm/detail/generic/math.hpp.
    Every function there is a loop over [size()] elements that stores the value of a <cmath> function into an array and builds the
    result from it, or is written with the operators of type.hpp.  The <cmath> functions themselves are not part of the code base:
    they are the fields of the record [cmath] (arbitrary functions), one field per argument/result shape, indexed by name.
    The alignment of the arrays is not modelled; the flags given to the constructors are ignored by the generic backend.

    Not modelled because they do not compile when instantiated: abs 30-36 ([return result]: no conversion from std::array), hence fabs 39;
    the scalar form of fmin 198-205 ([b[i]] on a scalar); lrint 912-920 ([result.data()] on a simd, which has no data());
    the __builtin_sincos branch of sincos 660-688 (passes the vector [x] instead of [x[i]]). *)
From Coq Require Import ZifyBool ZifyNat.
From Verif Require Import Base Cxx Generic.

(** ** Names *)
(** one argument, result of the same type *)
Inductive fn1 := Sqrt | Cbrt | Exp | Exp2 | Expm1 | Log | Log10 | Log2 | Log1p | Sin | Cos | Tan | Asin | Acos | Atan
  | Sinh | Cosh | Tanh | Asinh | Acosh | Atanh | Erf | Erfc | Tgamma | Lgamma | Ceil | Floor | Trunc | Nearbyint | Round | Logb.
(** one argument, integer result *)
Inductive fn1i := Lround | Llround | Llrint | Ilogb | Fpclassify.
(** one argument, bool result *)
Inductive fn1b := Isfinite | Isinf | Isnan | Isnormal | Signbit.
(** two arguments *)
Inductive fn2 := Fmod | Remainder | Fmax | Fmin | Fdim | Hypot | Pow | Atan2 | Nextafter | Copysign.
(** two arguments, the second an integer *)
Inductive fn2i := Ldexp | Scalbn | Scalbln.
(** two arguments, bool result *)
Inductive fn2b := Isgreater | Isgreaterequal | Isless | Islessequal | Islessgreater | Isunordered.

(** The scalar library: T is the element type, LD long double (second argument of nexttoward); integers are Z. *)
Record cmath (T LD : Type) := {
  std1 : fn1 -> T -> T;
  std1i : fn1i -> T -> Z;
  std1b : fn1b -> T -> bool;
  std2 : fn2 -> T -> T -> T;
  std2i : fn2i -> T -> Z -> T;
  std2b : fn2b -> T -> T -> bool;
  std_nexttoward : T -> LD -> T;
  std_lerp : T -> T -> T -> T;
  std_frexp : T -> T * Z;          (* fraction, stored exponent *)
  std_modf : T -> T * T;           (* fractional part, stored integral part *)
  std_remquo : T -> T -> T * Z     (* remainder, stored quotient bits *)
}.
Arguments std1 {T LD}. Arguments std1i {T LD}. Arguments std1b {T LD}. Arguments std2 {T LD}. Arguments std2i {T LD}.
Arguments std2b {T LD}. Arguments std_nexttoward {T LD}. Arguments std_lerp {T LD}. Arguments std_frexp {T LD}.
Arguments std_modf {T LD}. Arguments std_remquo {T LD}.

(** ** Loops *)
(** [std::array result = {}; for (i) result[i] = g(x[i]); return {result.data(), flags};] *)
Definition loop1 {A B} (zero : B) (g : A -> B) (N : nat) (x : list A) : res (list B) :=
  from_result zero N (fun i => v <- get x i;; Ok (g v)).
Definition loop2 {A B C} (zero : C) (g : A -> B -> C) (N : nat) (a : list A) (b : list B) : res (list C) :=
  from_result zero N (fun i => x <- get a i;; y <- get b i;; Ok (g x y)).
Definition loop3 {A B C D} (zero : D) (g : A -> B -> C -> D) (N : nat) (a : list A) (b : list B) (c : list C) : res (list D) :=
  from_result zero N (fun i => x <- get a i;; y <- get b i;; z <- get c i;; Ok (g x y z)).
(** The same with an out-pointer: [result[i] = g(x[i], out.data() + i)] fills two arrays, then [out_p->copy_from(out.data(), ..)].
    [o] is the previous content of *out_p.  Returns (result, new *out_p). *)
Definition loop_out {A B C} (zb : B) (zc : C) (g : A -> B * C) (N : nat) (x : list A) (o : list C) : res (list B * list C) :=
  ' (q, r) <- for_up 0 N (fun i s => v <- get x i;; q' <- set (fst s) i (snd (g v));; r' <- set (snd s) i (fst (g v));; Ok (q', r'))
                (repeat zc N, repeat zb N);;
  o' <- copy_from Ok N q 0 o;;
  r' <- copy_from Ok N r 0 (repeat zb N);;
  Ok (r', o').
Definition loop_out2 {A B C} (zb : B) (zc : C) (g : A -> A -> B * C) (N : nat) (a b : list A) (o : list C) : res (list B * list C) :=
  ' (q, r) <- for_up 0 N (fun i s => v <- get a i;; w <- get b i;; q' <- set (fst s) i (snd (g v w));; r' <- set (snd s) i (fst (g v w));; Ok (q', r'))
                (repeat zc N, repeat zb N);;
  o' <- copy_from Ok N q 0 o;;
  r' <- copy_from Ok N r 0 (repeat zb N);;
  Ok (r', o').

(** ** The functions *)
Section M.
  Context {T LD : Type} (L : cmath T LD) (z : T) (N : nat).

  Definition g_math1 (f : fn1) (x : list T) : res (list T) :=
    let call := loop1 z in
    match f with
    | Sqrt => call (std1 L Sqrt) N x              (* 355-362 *)
    | Cbrt => call (std1 L Cbrt) N x              (* 364-371 *)
    | Exp => call (std1 L Exp) N x                (* 455-462 *)
    | Exp2 => call (std1 L Exp2) N x              (* 464-471 *)
    | Expm1 => call (std1 L Expm1) N x            (* 473-480 *)
    | Log => call (std1 L Log) N x                (* 482-489 *)
    | Log10 => call (std1 L Log10) N x            (* 491-498 *)
    | Log2 => call (std1 L Log2) N x              (* 500-507 *)
    | Log1p => call (std1 L Log1p) N x            (* 509-516 *)
    | Sin => call (std1 L Sin) N x                (* 550-557 *)
    | Cos => call (std1 L Cos) N x                (* 559-566 *)
    | Tan => call (std1 L Tan) N x                (* 568-575 *)
    | Asin => call (std1 L Asin) N x              (* 577-584 *)
    | Acos => call (std1 L Acos) N x              (* 586-593 *)
    | Atan => call (std1 L Atan) N x              (* 595-602 *)
    | Sinh => call (std1 L Sinh) N x              (* 701-708 *)
    | Cosh => call (std1 L Cosh) N x              (* 710-717 *)
    | Tanh => call (std1 L Tanh) N x              (* 719-726 *)
    | Asinh => call (std1 L Asinh) N x            (* 728-735 *)
    | Acosh => call (std1 L Acosh) N x            (* 737-744 *)
    | Atanh => call (std1 L Atanh) N x            (* 746-753 *)
    | Erf => call (std1 L Erf) N x                (* 783-790 *)
    | Erfc => call (std1 L Erfc) N x              (* 792-799 *)
    | Tgamma => call (std1 L Tgamma) N x          (* 801-808 *)
    | Lgamma => call (std1 L Lgamma) N x          (* 810-817 *)
    | Ceil => call (std1 L Ceil) N x              (* 839-846 *)
    | Floor => call (std1 L Floor) N x            (* 848-855 *)
    | Trunc => call (std1 L Trunc) N x            (* 857-864 *)
    | Nearbyint => call (std1 L Nearbyint) N x    (* 866-873 *)
    | Round => call (std1 L Round) N x            (* 876-883 *)
    | Logb => call (std1 L Logb) N x              (* 1048-1055 *)
    end.
  (** Integer results: arrays of long, long long, int of the same number of elements. *)
  Definition g_math1i (f : fn1i) (x : list T) : res (list Z) :=
    let call := loop1 0%Z in
    match f with
    | Lround => call (std1i L Lround) N x           (* 885-892 *)
    | Llround => call (std1i L Llround) N x         (* 894-901 *)
    | Llrint => call (std1i L Llrint) N x           (* 922-929 *)
    | Ilogb => call (std1i L Ilogb) N x             (* 1039-1046 *)
    | Fpclassify => call (std1i L Fpclassify) N x   (* 1213-1220 *)
    end.
  Definition g_math1b (f : fn1b) (x : list T) : res (list bool) :=
    let call := loop1 false in
    match f with
    | Isfinite => call (std1b L Isfinite) N x       (* 1222-1229 *)
    | Isinf => call (std1b L Isinf) N x             (* 1231-1238 *)
    | Isnan => call (std1b L Isnan) N x             (* 1240-1247 *)
    | Isnormal => call (std1b L Isnormal) N x       (* 1249-1256 *)
    | Signbit => call (std1b L Signbit) N x         (* 1258-1265 *)
    end.
  Definition g_math2 (f : fn2) (a b : list T) : res (list T) :=
    let call := loop2 z in
    match f with
    | Fmod => call (std2 L Fmod) N a b              (* 42-49 *)
    | Remainder => call (std2 L Remainder) N a b    (* 51-58 *)
    | Fmax => call (std2 L Fmax) N a b              (* 74-81 *)
    | Fmin => call (std2 L Fmin) N a b              (* 84-91 *)
    | Fdim => call (std2 L Fdim) N a b              (* 93-100 *)
    | Hypot => call (std2 L Hypot) N a b            (* 373-380 *)
    | Pow => call (std2 L Pow) N a b                (* 382-389 *)
    | Atan2 => call (std2 L Atan2) N a b            (* 604-611 *)
    | Nextafter => call (std2 L Nextafter) N a b    (* 1057-1064 *)
    | Copysign => call (std2 L Copysign) N a b      (* 1075-1082 *)
    end.
  (** Forms with a scalar second argument; [None] where there is no such overload (or it does not compile: fmin). *)
  Definition g_math2s (f : fn2) (a : list T) (b : T) : option (res (list T)) :=
    let call g := Some (loop1 z (fun x => g x b) N a) in
    match f with
    | Fmod => call (std2 L Fmod)                    (* 169-176 *)
    | Remainder => call (std2 L Remainder)          (* 178-185 *)
    | Fmax => call (std2 L Fmax)                    (* 188-195 *)
    | Fdim => call (std2 L Fdim)                    (* 207-214 *)
    | Pow => call (std2 L Pow)                      (* 391-398 *)
    | Copysign => call (std2 L Copysign)            (* 1161-1168 *)
    | Fmin | Hypot | Atan2 | Nextafter => None
    end.
  Definition g_math2i (f : fn2i) (x : list T) (e : list Z) : res (list T) :=
    let call := loop2 z in
    match f with
    | Ldexp => call (std2i L Ldexp) N x e           (* 1012-1019 *)
    | Scalbn => call (std2i L Scalbn) N x e         (* 1021-1028 *)
    | Scalbln => call (std2i L Scalbln) N x e       (* 1030-1037 *)
    end.
  Definition g_math2is (f : fn2i) (x : list T) (e : Z) : res (list T) :=
    let call g := loop1 z (fun v => g v e) N x in
    match f with
    | Ldexp => call (std2i L Ldexp)                 (* 1134-1141 *)
    | Scalbn => call (std2i L Scalbn)               (* 1143-1150 *)
    | Scalbln => call (std2i L Scalbln)             (* 1152-1159 *)
    end.
  Definition g_math2b (f : fn2b) (a b : list T) : res (list bool) :=
    let call := loop2 false in
    match f with
    | Isgreater => call (std2b L Isgreater) N a b             (* 1293-1300 *)
    | Isgreaterequal => call (std2b L Isgreaterequal) N a b   (* 1302-1309 *)
    | Isless => call (std2b L Isless) N a b                   (* 1311-1318 *)
    | Islessequal => call (std2b L Islessequal) N a b         (* 1320-1327 *)
    | Islessgreater => call (std2b L Islessgreater) N a b     (* 1329-1336 *)
    | Isunordered => call (std2b L Isunordered) N a b         (* 1338-1345 *)
    end.
  Definition g_nexttoward (a : list T) (b : list LD) : res (list T) := loop2 z (std_nexttoward L) N a b.    (* 1066-1073 *)
  Definition g_lerp (a b f : list T) : res (list T) := loop3 z (std_lerp L) N a b f.                        (* 102-109 *)
  Definition g_lerp_s (a b : list T) (f : T) : res (list T) := loop2 z (fun x y => std_lerp L x y f) N a b. (* 216-223 *)
  (** 986-997; the exponents are stored in *out_exp.  1194-1195 (by reference) is the same. *)
  Definition g_frexp (x : list T) (o : list Z) : res (list T * list Z) := loop_out z 0%Z (std_frexp L) N x o.
  (** 999-1010, 1197-1198 *)
  Definition g_modf (x : list T) (o : list T) : res (list T * list T) := loop_out z z (std_modf L) N x o.
  (** 61-72, 279-280 *)
  Definition g_remquo (a b : list T) (o : list Z) : res (list T * list Z) := loop_out2 z 0%Z (std_remquo L) N a b o.
  (** 649-695, the branch at 691-694 ([out_sin = sin(x); out_cos = cos(x);]): (new out_sin, new out_cos) *)
  Definition g_sincos (x : list T) : res (list T * list T) :=
    s <- g_math1 Sin x;; c <- g_math1 Cos x;; Ok (s, c).
End M.

(** ** Promoted overloads
    111-166, 225-272, 294-333, 400-431, 440, 449, 518-546, 613-644, 755-779, 819-835, 1084-1131, 1170-1189, 1200-1207, 1267-1290, 1347-1394:
    the arguments are converted with the constructor [promoted_t{x}] and the function of the promoted type is called.
    (A promoted scalar is written [promote_t<T0, T1>{b}].) *)
Definition promote1 {A B R} (conv : A -> B) (zb : B) (N : nat) (f : list B -> res R) (x : list A) : res R :=
  x' <- convert (fun v => Ok (conv v)) zb N x;; f x'.
Definition promote2 {A0 A1 B R} (c0 : A0 -> B) (c1 : A1 -> B) (zb : B) (N : nat) (f : list B -> list B -> res R) (a : list A0) (b : list A1) : res R :=
  a' <- convert (fun v => Ok (c0 v)) zb N a;; b' <- convert (fun v => Ok (c1 v)) zb N b;; f a' b'.
Definition promote3 {A0 A1 A2 B R} (c0 : A0 -> B) (c1 : A1 -> B) (c2 : A2 -> B) (zb : B) (N : nat) (f : list B -> list B -> list B -> res R)
  (a : list A0) (b : list A1) (c : list A2) : res R :=
  a' <- convert (fun v => Ok (c0 v)) zb N a;; b' <- convert (fun v => Ok (c1 v)) zb N b;; c' <- convert (fun v => Ok (c2 v)) zb N c;; f a' b' c'.

(** ** Functions written with the operators of type.hpp *)
Inductive fm := Fmadd | Fmsub | Fnmadd | Fnmsub.
Section O.
  Context (T : scalar) (N : nat).
  Definition g_fm (o : fm) (a b c : list (elt T)) : res (list (elt T)) :=
    ab <- simd_binary T OpMul N a b;;
    match o with
    | Fmadd => simd_binary T OpAdd N ab c                              (* 282-283: a * b + c *)
    | Fmsub => simd_binary T OpSub N ab c                              (* 285-286: a * b - c *)
    | Fnmadd => simd_binary T OpSub N c ab                             (* 288-289: c - a * b *)
    | Fnmsub => n <- simd_neg T N ab;; simd_binary T OpSub N n c       (* 291-292: -(a * b) - c *)
    end.
  (** 348-350 *)
  Definition g_fma := g_fm Fmadd.
  (** 436-437: simd{T{1}} / x *)
  Definition g_rcp (x : list (elt T)) : res (list (elt T)) :=
    o <- broadcast N (sc_one T) (repeat (sc_zero T) N);; simd_binary T OpDiv N o x.
  (** 444-445: rcp(sqrt(x)) *)
  Definition g_rsqrt {LD} (L : cmath (elt T) LD) (x : list (elt T)) : res (list (elt T)) :=
    s <- g_math1 L (sc_zero T) N Sqrt x;; g_rcp s.
End O.
