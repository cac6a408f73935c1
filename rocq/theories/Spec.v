(** Small specifications the property theorems are stated with. Nothing here refers to the model of the
    code; only to lists of elements, outcomes and scalar operations. *)
From Coq Require Import Permutation.
From Verif Require Import Base Cxx.

(** [r] is [f] applied to each of the N elements of [a], in place; undefined exactly when [f] is undefined
    at some element. *)
Definition elementwise1 {A B} (N : nat) (f : A -> res B) (a : list A) (r : res (list B)) : Prop :=
  match r with
  | Ok r => length r = N /\
            forall i x, i < N -> nth_error a i = Some x -> exists y, f x = Ok y /\ nth_error r i = Some y
  | UB => exists i x, i < N /\ nth_error a i = Some x /\ f x = UB
  end.
Definition elementwise2 {A B C} (N : nat) (f : A -> B -> res C) (a : list A) (b : list B) (r : res (list C)) : Prop :=
  match r with
  | Ok r => length r = N /\
            forall i x y, i < N -> nth_error a i = Some x -> nth_error b i = Some y ->
                          exists z, f x y = Ok z /\ nth_error r i = Some z
  | UB => exists i x y, i < N /\ nth_error a i = Some x /\ nth_error b i = Some y /\ f x y = UB
  end.
Definition elementwise3 {A B C D} (N : nat) (f : A -> B -> C -> res D) (a : list A) (b : list B) (c : list C) (r : res (list D)) : Prop :=
  match r with
  | Ok r => length r = N /\
            forall i x y z, i < N -> nth_error a i = Some x -> nth_error b i = Some y -> nth_error c i = Some z ->
                          exists v, f x y z = Ok v /\ nth_error r i = Some v
  | UB => exists i x y z, i < N /\ nth_error a i = Some x /\ nth_error b i = Some y /\ nth_error c i = Some z /\ f x y z = UB
  end.

(** GENERALIZED_SUM of the parallelism TS: [v] is obtained from the elements of [l] by combining them with
    [op] in some order and grouping, each element used exactly once. *)
Inductive gsum {A} (op : A -> A -> res A) : list A -> A -> Prop :=
| gsum_one x : gsum op [x] x
| gsum_split l l1 l2 x y z :
    Permutation l (l1 ++ l2) -> gsum op l1 x -> gsum op l2 y -> op x y = Ok z -> gsum op l z.

(** Number of true elements. *)
Definition count_true (l : list bool) : nat := length (filter (fun b => b) l).
(** [i] is the smallest / largest index of a true element. *)
Definition first_true (l : list bool) (i : nat) : Prop :=
  nth_error l i = Some true /\ forall j, j < i -> nth_error l j = Some false.
Definition last_true (l : list bool) (i : nat) : Prop :=
  nth_error l i = Some true /\ forall j, i < j -> j < length l -> nth_error l j = Some false.

(** Memory frame: [m'] agrees with [m] outside [[p, p+n)]. *)
Definition same_outside {A} (p n : nat) (m m' : list A) : Prop :=
  length m' = length m /\ forall j, j < p \/ p + n <= j -> nth_error m' j = nth_error m j.

(** Shifts of a w-bit pattern. *)
Open Scope Z_scope.
Definition shl_bits (w n x : Z) : Z := (x * 2 ^ n) mod 2 ^ w.
Definition lshr_bits (n x : Z) : Z := x / 2 ^ n.
Definition ashr_bits (w n x : Z) : Z := (sgn w x / 2 ^ n) mod 2 ^ w.
Close Scope Z_scope.

(** Reference meaning of "call gen for 0, 1, ..., n-1 in order, threading its state". *)
Fixpoint call_gen {A S} (n I : nat) (gen : nat -> S -> res (A * S)) (s : S) : res (list A * S) :=
  match n with
  | O => Ok ([], s)
  | Datatypes.S n' => ' (v, s') <- gen I s;; ' (vs, s'') <- call_gen n' (Datatypes.S I) gen s';; Ok (v :: vs, s'')
  end.

(** Exact mathematical result of an integer operator on the operands' values. *)
Open Scope Z_scope.
Definition exact_val (o : binop) (a b : Z) : Z :=
  match o with
  | OpAdd => a + b | OpSub => a - b | OpMul => a * b | OpDiv => Z.quot a b | OpMod => Z.rem a b
  | OpAnd => Z.land a b | OpOr => Z.lor a b | OpXor => Z.lxor a b
  | OpShl => a * 2 ^ b | OpShr => a / 2 ^ b
  end.
Close Scope Z_scope.

(** "Wherever the scalar operation is defined, element i is its value." *)
Definition refines1 {A B} (N : nat) (f : A -> res B) (a : list A) (r : list B) : Prop :=
  length r = N /\ forall i x y, i < N -> nth_error a i = Some x -> f x = Ok y -> nth_error r i = Some y.
Definition refines2 {A B C} (N : nat) (f : A -> B -> res C) (a : list A) (b : list B) (r : list C) : Prop :=
  length r = N /\ forall i x y z, i < N -> nth_error a i = Some x -> nth_error b i = Some y -> f x y = Ok z -> nth_error r i = Some z.
Definition refines3 {A B C D} (N : nat) (f : A -> B -> C -> res D) (a : list A) (b : list B) (c : list C) (r : list D) : Prop :=
  length r = N /\ forall i x y z v, i < N -> nth_error a i = Some x -> nth_error b i = Some y -> nth_error c i = Some z -> f x y z = Ok v -> nth_error r i = Some v.
