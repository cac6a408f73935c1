(** Scalar C++20 semantics of the element types (the part the library relies on).
    Elements are bit patterns; [ival] is the value of a pattern. Source: the C++20 standard rules the
    expressions [a[i] op b[i]] of /repo/dpm/detail/generic/type.hpp use: integral promotion to [int]
    (32 bits), undefined signed overflow, undefined division by zero and out of range shift counts,
    modular conversion back to the element type. *)
From Verif Require Import Base.
Open Scope Z_scope.

Inductive binop := OpAdd | OpSub | OpMul | OpDiv | OpMod | OpAnd | OpOr | OpXor | OpShl | OpShr.
Inductive cmpop := CEq | CNe | CLt | CLe | CGt | CGe.

(** Integral type: width in bits and signedness. *)
Record ity := { iw : Z; isg : bool }.
Definition ity_ok (t : ity) : Prop := iw t = 8 \/ iw t = 16 \/ iw t = 32 \/ iw t = 64.
Definition int8 := {| iw := 8; isg := true |}.
Definition uint8 := {| iw := 8; isg := false |}.
Definition int16 := {| iw := 16; isg := true |}.
Definition uint16 := {| iw := 16; isg := false |}.
Definition int32 := {| iw := 32; isg := true |}.
Definition uint32 := {| iw := 32; isg := false |}.
Definition int64 := {| iw := 64; isg := true |}.
Definition uint64 := {| iw := 64; isg := false |}.

Definition ival (t : ity) (x : Z) : Z := if isg t then sgn (iw t) x else x.
Definition imin (t : ity) : Z := if isg t then - 2 ^ (iw t - 1) else 0.
Definition imax (t : ity) : Z := if isg t then 2 ^ (iw t - 1) - 1 else 2 ^ iw t - 1.
Definition fits (t : ity) (v : Z) : bool := (imin t <=? v) && (v <=? imax t).
(** Conversion of a value to the type: the pattern congruent modulo 2^w (C++20 [conv.integral]). *)
Definition of_val (t : ity) (v : Z) : Z := wrap (iw t) v.
(** Integral promotion [conv.prom]: narrower than int goes to int. *)
Definition promote (t : ity) : ity := if iw t <? 32 then int32 else t.
(** Result of an arithmetic operator computed in type [t]: UB on signed overflow, modular if unsigned. *)
Definition arith (t : ity) (v : Z) : res Z :=
  if isg t then (if fits t v then Ok v else UB) else Ok (wrap (iw t) v).
(** Value of the pattern congruent to [v], in type [t]. *)
Definition renorm (t : ity) (v : Z) : Z := ival t (of_val t v).

(** Shift of a value [a] of promoted type [p] by count [n]. *)
Definition cxx_shift_val (p : ity) (left : bool) (a n : Z) : res Z :=
  if (0 <=? n) && (n <? iw p)
  then Ok (if left then renorm p (a * 2 ^ n) else Z.shiftr a n)
  else UB.

Definition cxx_val (p : ity) (o : binop) (a b : Z) : res Z :=
  match o with
  | OpAdd => arith p (a + b)
  | OpSub => arith p (a - b)
  | OpMul => arith p (a * b)
  | OpDiv => if b =? 0 then UB else arith p (Z.quot a b)
  | OpMod => if b =? 0 then UB else _ <- arith p (Z.quot a b);; Ok (Z.rem a b)
  | OpAnd => Ok (Z.land a b)
  | OpOr => Ok (Z.lor a b)
  | OpXor => Ok (Z.lxor a b)
  | OpShl => cxx_shift_val p true a b
  | OpShr => cxx_shift_val p false a b
  end.

(** [T r = a op b;] for [T a, b]. *)
Definition cxx_bin (t : ity) (o : binop) (x y : Z) : res Z :=
  v <- cxx_val (promote t) o (ival t x) (ival t y);; Ok (of_val t v).
(** [T r = a << n;] / [a >> n] for an integral count [n] of another type (value [n]). *)
Definition cxx_shift (t : ity) (left : bool) (x n : Z) : res Z :=
  v <- cxx_shift_val (promote t) left (ival t x) n;; Ok (of_val t v).
(** [T r = -a;], [T r = ~a;], [bool r = !a;] *)
Definition cxx_neg (t : ity) (x : Z) : res Z :=
  v <- arith (promote t) (- ival t x);; Ok (of_val t v).
Definition cxx_not (t : ity) (x : Z) : res Z := Ok (of_val t (Z.lnot (ival t x))).
Definition cxx_lnot (t : ity) (x : Z) : bool := ival t x =? 0.
Definition cmp_val (o : cmpop) (a b : Z) : bool :=
  match o with
  | CEq => a =? b | CNe => negb (a =? b) | CLt => a <? b | CLe => a <=? b | CGt => b <? a | CGe => b <=? a
  end.
Definition cxx_cmp (t : ity) (o : cmpop) (x y : Z) : bool := cmp_val o (ival t x) (ival t y).
(** [static_cast<U>(a)] between integral types. *)
Definition cxx_cast (t u : ity) (x : Z) : Z := of_val u (ival t x).

(** [bool] operands: [~], [^], [&], [|] promote to int and convert back with [!= 0]. *)
Definition to_bool (v : Z) : bool := negb (v =? 0).
Definition bool_bitnot (b : bool) : bool := to_bool (Z.lnot (Z.b2z b)).
Definition bool_bitxor (a b : bool) : bool := to_bool (Z.lxor (Z.b2z a) (Z.b2z b)).

(** A scalar element type as the vector code sees it: the meaning of each scalar expression. *)
Record scalar := {
  elt : Type;
  sc_zero : elt;                              (* value of [T{}] *)
  sc_bin : binop -> elt -> elt -> res elt;    (* a op b, converted to T *)
  sc_shift : bool -> elt -> Z -> res elt;     (* a << n / a >> n, integral n *)
  sc_neg : elt -> res elt;                    (* -a *)
  sc_not : elt -> res elt;                    (* ~a *)
  sc_lnot : elt -> bool;                      (* !a *)
  sc_one : elt;                               (* T(1) *)
  sc_cmp : cmpop -> elt -> elt -> bool        (* a op b *)
}.
Definition int_scalar (t : ity) : scalar := {|
  elt := Z; sc_zero := 0; sc_bin := cxx_bin t; sc_shift := cxx_shift t; sc_neg := cxx_neg t;
  sc_not := cxx_not t; sc_lnot := cxx_lnot t; sc_one := 1; sc_cmp := cxx_cmp t |}.

(** *** Facts about the scalar semantics *)
Lemma ity_pos t : ity_ok t -> 8 <= iw t.
Proof. unfold ity_ok; lia. Qed.
Lemma imin_imax t : ity_ok t -> imin t <= 0 <= imax t.
Proof.
  intros H. apply ity_pos in H. unfold imin, imax. pose proof (pow2_pos (iw t)). pose proof (pow2_pos (iw t - 1)).
  destruct (isg t); lia.
Qed.
Lemma ival_range t x : ity_ok t -> word (iw t) x -> imin t <= ival t x <= imax t.
Proof.
  intros H Hx. apply ity_pos in H. unfold ival, imin, imax.
  destruct (isg t).
  - pose proof (sgn_range (iw t) x ltac:(lia) Hx). lia.
  - unfold word in Hx; lia.
Qed.
Lemma of_val_ival t x : ity_ok t -> word (iw t) x -> of_val t (ival t x) = x.
Proof.
  intros H Hx. apply ity_pos in H. unfold of_val, ival. destruct (isg t).
  - apply wrap_sgn; auto; lia.
  - apply wrap_id; auto.
Qed.
Lemma ival_of_val t v : ity_ok t -> imin t <= v <= imax t -> ival t (of_val t v) = v.
Proof.
  intros H Hv. apply ity_pos in H. unfold of_val, ival, imin, imax in *. destruct (isg t).
  - apply sgn_wrap; lia.
  - unfold wrap. apply Z.mod_small; lia.
Qed.
Lemma of_val_word t v : ity_ok t -> word (iw t) (of_val t v).
Proof. intros H; apply ity_pos in H. apply wrap_word; lia. Qed.
Lemma promote_ok t : ity_ok t -> ity_ok (promote t).
Proof. unfold promote, ity_ok. destruct (iw t <? 32); simpl; lia. Qed.
Lemma promote_range t : ity_ok t -> imin (promote t) <= imin t /\ imax t <= imax (promote t).
Proof.
  unfold promote, ity_ok, imin, imax. intros H. destruct (Z.ltb_spec (iw t) 32) as [L|L]; [|lia].
  destruct t as [w s]; simpl in *. destruct H as [H|[H|[H|H]]]; rewrite H in *; try lia; destruct s; simpl; lia.
Qed.
Lemma fits_spec t v : fits t v = true <-> imin t <= v <= imax t.
Proof. unfold fits. rewrite andb_true_iff, !Z.leb_le. tauto. Qed.
Close Scope Z_scope.
