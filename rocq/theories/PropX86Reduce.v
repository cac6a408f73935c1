(** C19: horizontal reductions of the x86 backend.

    [reduce_compiles X] excludes one family of instantiations the library does not contain (256-bit vectors of 1- and
    2-byte integers with AVX2: there is no reduce<T>(__m256i, op) overload for them). *)
From Coq Require Import ZifyBool ZifyNat Permutation.
From Verif Require Import Base Cxx Spec Generic GenericProofs X86Vec X86 X86Lemmas X86Proofs X86Ops X86Mem X86Reduce X86ReduceProofs PropX86.
Set Implicit Arguments.

(** reduce(x) / reduce(x, std::plus<>()) of N integers is their sum modulo 2^w; the padding lanes, whatever they hold, do
    not contribute. Every N, every instruction set (1- and 2-byte elements: with SSSE3). *)
Theorem C19_reduce_plus_int F X x : xty_ok X -> reduce_compiles X = true -> is_int (xT X) = true -> shaped X x ->
  4 <= esz (xT X) \/ ssse3 (xc X) = true ->
  x_reduce F X RPlus x = Ok ((fold_right Z.add 0 (elems X x)) mod 2 ^ xw X)%Z.
Proof.
  intros HX Hc Hi Hx Hs. unfold x_reduce, x_reduce4, x_reduce2.
  destruct (Nat.leb_spec 4 (esz (xT X))); [|destruct Hs as [?|Hs]; [lia|rewrite Hs]]; apply reduce_add_int; auto.
Qed.
Print Assumptions C19_reduce_plus_int.
(** reduce(x, std::multiplies<>()): 4-byte integers with SSE4.1 and 2-byte integers with SSSE3. *)
Theorem C19_reduce_multiplies_int F X x : xty_ok X -> reduce_compiles X = true -> is_int (xT X) = true -> shaped X x ->
  (esz (xT X) = 4 /\ sse41 (xc X) = true) \/ (esz (xT X) = 2 /\ ssse3 (xc X) = true) ->
  x_reduce F X RMul x = Ok ((fold_right Z.mul 1 (elems X x)) mod 2 ^ xw X)%Z.
Proof.
  intros HX Hc Hi Hx [[E Hs]|[E Hs]]; unfold x_reduce, x_reduce4, x_reduce2; rewrite E; cbn [Nat.leb Nat.eqb]; rewrite ?Hi, Hs; cbn [negb andb];
    apply reduce_mul_int; auto.
Qed.
Print Assumptions C19_reduce_multiplies_int.
(** std::bit_and, std::bit_or, std::bit_xor. *)
Theorem C19_reduce_bitwise_int F X x : xty_ok X -> reduce_compiles X = true -> is_int (xT X) = true -> shaped X x ->
  4 <= esz (xT X) \/ ssse3 (xc X) = true ->
  x_reduce F X RAnd x = Ok (fold_right Z.land (2 ^ xw X - 1)%Z (elems X x)) /\
  x_reduce F X ROr x = Ok (fold_right Z.lor 0%Z (elems X x)) /\
  x_reduce F X RXor x = Ok (fold_right Z.lxor 0%Z (elems X x)).
Proof.
  intros HX Hc Hi Hx Hs. unfold x_reduce, x_reduce4, x_reduce2. rewrite Hi.
  destruct (Nat.leb_spec 4 (esz (xT X))); [|destruct Hs as [?|Hs]; [lia|rewrite Hs]];
    (repeat split; [apply reduce_and_int|apply reduce_or_int|apply reduce_xor_int]; auto).
Qed.
Print Assumptions C19_reduce_bitwise_int.
(** reduce_min / reduce_max of integers, where the library has a vector version: an element of x that no element is below
    (above). *)
Theorem C19_reduce_min_int F X x : xty_ok X -> reduce_compiles X = true -> is_int (xT X) = true -> shaped X x ->
  has_reduce_minmax X = true ->
  exists r, x_reduce_min F X x = Ok r /\ In r (elems X x) /\
    forall y, In y (elems X x) -> (ival (ity_of (xT X)) r <= ival (ity_of (xT X)) y)%Z.
Proof. intros HX Hc Hi Hx Hm. unfold x_reduce_min. rewrite Hm. apply reduce_min_int; auto. Qed.
Print Assumptions C19_reduce_min_int.
Theorem C19_reduce_max_int F X x : xty_ok X -> reduce_compiles X = true -> is_int (xT X) = true -> shaped X x ->
  has_reduce_minmax X = true ->
  exists r, x_reduce_max F X x = Ok r /\ In r (elems X x) /\
    forall y, In y (elems X x) -> (ival (ity_of (xT X)) y <= ival (ity_of (xT X)) r)%Z.
Proof. intros HX Hc Hi Hx Hm. unfold x_reduce_max. rewrite Hm. apply reduce_max_int; auto. Qed.
Print Assumptions C19_reduce_max_int.

(** Floats.  With no padding lanes the result of + and * is a grouping of exactly the N elements, each used once; [F] is
    any lane arithmetic. *)
Theorem C19_reduce_float_exact F X x : xty_ok X -> reduce_compiles X = true -> is_int (xT X) = false -> shaped X x ->
  fops_ok X F -> red_pad X = 0 ->
  (exists r, x_reduce F X RPlus x = Ok r /\ gsum (fun a b => Ok (f_add F (xw X) a b)) (elems X x) r) /\
  (exists r, x_reduce F X RMul x = Ok r /\ gsum (fun a b => Ok (f_mul F (xw X) a b)) (elems X x) r).
Proof.
  intros HX Hc Hi Hx HF Hp.
  assert (H4 : (4 <=? esz (xT X)) = true).
  { pose proof HX as (_ & HT & _). unfold ety_ok, is_int in *. destruct (ek (xT X)); [discriminate|]. lia. }
  unfold x_reduce, x_reduce4. rewrite H4, Hi. cbn [negb]. split.
  - destruct (reduce_add_float HX Hc HF Hi Hx) as (r & E & G). rewrite Hp, app_nil_r in G. eauto.
  - destruct (reduce_mul_float HX Hc HF Hi Hx) as (r & E & G). rewrite Hp, app_nil_r in G. eauto.
Qed.
Print Assumptions C19_reduce_float_exact.
(** With padding, the same plus one identity (+0.0, 1.0) per padding lane; hence the exact sum wherever the identity is
    neutral ([P] any closed set of values on which it is, e.g. every value but -0.0 for +). *)
Theorem C19_reduce_float_padded F X x : xty_ok X -> reduce_compiles X = true -> is_int (xT X) = false -> shaped X x ->
  fops_ok X F ->
  (exists r, x_reduce F X RPlus x = Ok r /\
     gsum (fun a b => Ok (f_add F (xw X) a b)) (elems X x ++ repeat 0%Z (red_pad X)) r) /\
  (exists r, x_reduce F X RMul x = Ok r /\
     gsum (fun a b => Ok (f_mul F (xw X) a b)) (elems X x ++ repeat (if xw X =? 32 then 0x3f800000 else 0x3ff0000000000000)%Z (red_pad X)) r).
Proof.
  intros HX Hc Hi Hx HF.
  assert (E1 : (if xw X =? 32 then 0x3f800000 else 0x3ff0000000000000)%Z = one_of (xT X)).
  { unfold one_of, xw, ew, is_int in *. destruct (ek (xT X)); [discriminate|]. destruct (Nat.eqb_spec (esz (xT X)) 4) as [-> | N]; [reflexivity|].
    destruct (Z.eqb_spec (8 * Z.of_nat (esz (xT X))) 32); [lia|reflexivity]. }
  rewrite E1. clear E1.
  assert (H4 : (4 <=? esz (xT X)) = true).
  { pose proof HX as (_ & HT & _). unfold ety_ok, is_int in *. destruct (ek (xT X)); [discriminate|]. lia. }
  unfold x_reduce, x_reduce4. rewrite H4, Hi. cbn [negb]. split.
  - apply (reduce_add_float HX Hc HF Hi Hx).
  - apply (reduce_mul_float HX Hc HF Hi Hx).
Qed.
Print Assumptions C19_reduce_float_padded.
Theorem C19_reduce_float_neutral F X x (P : Z -> Prop) : xty_ok X -> reduce_compiles X = true -> is_int (xT X) = false -> shaped X x ->
  fops_ok X F -> (forall a, P a -> f_add F (xw X) a 0 = a /\ f_add F (xw X) 0 a = a) -> f_add F (xw X) 0 0 = 0%Z ->
  (forall a b, P a -> P b -> P (f_add F (xw X) a b)) -> Forall P (elems X x) ->
  exists r, x_reduce F X RPlus x = Ok r /\ gsum (fun a b => Ok (f_add F (xw X) a b)) (elems X x) r.
Proof.
  intros HX Hc Hi Hx HF Hid H0 Hcl HP. destruct (C19_reduce_float_padded HX Hc Hi Hx HF) as [(r & E & G) _].
  exists r. split; auto.
  destruct (@gsum_pad _ (f_add F (xw X)) P 0%Z) with (L := elems X x ++ repeat 0%Z (red_pad X)) (r := r) (l := elems X x) (k := red_pad X) as [_ H];
    auto; try (intros; apply Hid; auto).
  apply H. apply elems_nonempty; auto.
Qed.
Print Assumptions C19_reduce_float_neutral.
Lemma fkey_finf w y : (w = 32 \/ w = 64)%Z -> word w y -> fnan w y = false ->
  (y <> finf w -> fkey w y <= fkey w (finf w - 1))%Z /\
  (y <> 2 ^ (w - 1) + finf w -> fkey w (2 ^ (w - 1) + (finf w - 1)) <= fkey w y)%Z.
Proof.
  intros [-> | ->] [Y1 Y2] Hn; unfold fnan in Hn; apply Z.ltb_ge in Hn.
  - change (finf 32) with 2139095040%Z in *. change (2 ^ (32 - 1))%Z with 2147483648%Z in *. change (2 ^ 32)%Z with 4294967296%Z in *.
    change (fkey 32 (2139095040 - 1)) with 2139095039%Z. change (fkey 32 (2147483648 + (2139095040 - 1))) with (-2139095039)%Z.
    unfold fkey, fsign, fmag in *. change (2 ^ (32 - 1))%Z with 2147483648%Z in *.
    destruct (Z.leb_spec 2147483648 y); Z.div_mod_to_equations; lia.
  - change (finf 64) with 9218868437227405312%Z in *. change (2 ^ (64 - 1))%Z with 9223372036854775808%Z in *. change (2 ^ 64)%Z with 18446744073709551616%Z in *.
    change (fkey 64 (9218868437227405312 - 1)) with 9218868437227405311%Z.
    change (fkey 64 (9223372036854775808 + (9218868437227405312 - 1))) with (-9218868437227405311)%Z.
    unfold fkey, fsign, fmag in *. change (2 ^ (64 - 1))%Z with 9223372036854775808%Z in *.
    destruct (Z.leb_spec 9223372036854775808 y); Z.div_mod_to_equations; lia.
Qed.
(** reduce_min / reduce_max of floats that are not NaN: an element of x, not above (below) any element - when there are no
    padding lanes or no element is +infinity (-infinity). *)
Theorem C19_reduce_min_float F X x : xty_ok X -> reduce_compiles X = true -> is_int (xT X) = false -> shaped X x ->
  (forall y, In y (elems X x) -> fnan (xw X) y = false) ->
  red_pad X = 0 \/ ~ In (finf (xw X)) (elems X x) ->
  exists r, x_reduce_min F X x = Ok r /\ In r (elems X x) /\ forall y, In y (elems X x) -> fle (xw X) r y = true.
Proof.
  intros HX Hc Hi Hx Hn Hp.
  assert (Hm : has_reduce_minmax X = true) by (unfold has_reduce_minmax, is_int in *; destruct (ek (xT X)); [discriminate|auto]).
  unfold x_reduce_min. rewrite Hm. apply reduce_min_float; auto. destruct Hp as [Hp|Hp]; [left; auto|right].
  intros y Hy. pose proof (proj1 (Forall_forall _ _) (elems_words Hx) y Hy) as Wy. specialize (Hn y Hy).
  assert (Hny : y <> finf (xw X)) by congruence. pose proof HX as (_ & HT & _).
  replace (max_of (xT X)) with (finf (xw X) - 1)%Z by (unfold max_of, is_int, xw in *; destruct (ek (xT X)); [discriminate|auto]).
  apply fkey_finf; auto. apply float_w; auto.
Qed.
Print Assumptions C19_reduce_min_float.
Theorem C19_reduce_max_float F X x : xty_ok X -> reduce_compiles X = true -> is_int (xT X) = false -> shaped X x ->
  (forall y, In y (elems X x) -> fnan (xw X) y = false) ->
  red_pad X = 0 \/ ~ In (2 ^ (xw X - 1) + finf (xw X))%Z (elems X x) ->
  exists r, x_reduce_max F X x = Ok r /\ In r (elems X x) /\ forall y, In y (elems X x) -> fle (xw X) y r = true.
Proof.
  intros HX Hc Hi Hx Hn Hp.
  assert (Hm : has_reduce_minmax X = true) by (unfold has_reduce_minmax, is_int in *; destruct (ek (xT X)); [discriminate|auto]).
  unfold x_reduce_max. rewrite Hm. apply reduce_max_float; auto. destruct Hp as [Hp|Hp]; [left; auto|right].
  intros y Hy. pose proof (proj1 (Forall_forall _ _) (elems_words Hx) y Hy) as Wy. specialize (Hn y Hy).
  assert (Hny : (y <> 2 ^ (xw X - 1) + finf (xw X))%Z) by congruence. pose proof HX as (_ & HT & _).
  replace (lowest_of (xT X)) with (2 ^ (xw X - 1) + (finf (xw X) - 1))%Z by (unfold lowest_of, is_int, xw in *; destruct (ek (xT X)); [discriminate|auto]).
  apply fkey_finf; auto. apply float_w; auto.
Qed.
Print Assumptions C19_reduce_max_float.

(** Cases: int32, N = 6, SSE2, padding lanes 777 and 888; float, N = 5. *)
Example C19_case_sum : x_reduce noF i32x6 RPlus va = Ok 21%Z.
Proof. rewrite C19_reduce_plus_int; auto using i32x6_ok, va_ok. Qed.
Definition vf : list vec := [[1065353216; 1073741824; 3221225472; 1077936128]; [1082130432; 4286578688; 7; 7]]%Z. (* 1, 2, -2, 3, 4 | -inf, .. *)
Lemma vf_ok : shaped f32x5 vf. Proof. shp. Qed.
Example C19_case_min : x_reduce_min noF f32x5 vf = Ok 3221225472%Z.
Proof. reflexivity. Qed.
Example C19_case_min_hyps : (forall y, In y (elems f32x5 vf) -> fnan 32 y = false) /\ ~ In (finf 32) (elems f32x5 vf) /\ reduce_compiles f32x5 = true.
Proof. cbn. split; [|split]; [intros y H|intros H|auto]; intuition (subst; try reflexivity; try discriminate). Qed.
Example C19_case_full : red_pad {| xc := haswell; xT := {| esz := 8; ek := KFloat |}; xvs := 32; xN := 8 |} = 0. Proof. reflexivity. Qed.

(** *** Where the property fails *)
(** int64 (and, without SSE4.1, int32) multiplication falls off the end of the function for every vector ... *)
Theorem C19_reduce_multiplies_int_refuted F X x : is_int (xT X) = true ->
  esz (xT X) = 8 \/ (esz (xT X) = 4 /\ sse41 (xc X) = false) -> x_reduce F X RMul x = UB.
Proof.
  intros Hi [E|[E Hs]]; unfold x_reduce, x_reduce4; rewrite E, Hi; cbn [Nat.leb negb Nat.eqb]; [rewrite andb_false_r; auto|rewrite Hs; auto].
Qed.
(** ... and so does any functor other than the five known ones on 4- and 8-byte integers ... *)
Theorem C19_reduce_functor_refuted F X g x : is_int (xT X) = true -> 4 <= esz (xT X) -> x_reduce F X (ROther g) x = UB.
Proof. intros Hi H4. unfold x_reduce, x_reduce4. replace (4 <=? esz (xT X)) with true by lia. rewrite Hi. auto. Qed.
(** ... hence reduce_min and reduce_max of int64 / uint64, and of int32 / uint32 without SSE4.1. *)
Theorem C19_reduce_minmax_int_refuted F X x : is_int (xT X) = true ->
  esz (xT X) = 8 \/ (esz (xT X) = 4 /\ sse41 (xc X) = false) -> x_reduce_min F X x = UB /\ x_reduce_max F X x = UB.
Proof.
  intros Hi H. assert (Hm : has_reduce_minmax X = false).
  { unfold has_reduce_minmax, is_int in *. destruct (ek (xT X)) as [sg|]; [|discriminate].
    destruct H as [E|[E Hs]]; rewrite E, ?Hs; cbn [Nat.ltb Nat.leb Nat.eqb]; destruct (sse41 (xc X)), sg; cbn [negb andb orb]; auto using andb_false_r. }
  unfold x_reduce_min, x_reduce_max. rewrite Hm. split; apply C19_reduce_functor_refuted; auto; lia.
Qed.
(** reduce_min of infinities with padding lanes returns the largest finite float, reduce_max of -infinities the lowest. *)
Theorem C19_reduce_min_infinity_refuted :
  exists X x, xty_ok X /\ shaped X x /\ elems X x = repeat (finf 32) 5 /\ x_reduce_min noF X x = Ok (finf 32 - 1)%Z.
Proof. exists f32x5, (repeat (repeat (finf 32) 4) 2). split; [apply f32x5_ok|]. split; [shp|]. split; reflexivity. Qed.
Theorem C19_reduce_max_infinity_refuted :
  exists X x, xty_ok X /\ shaped X x /\ elems X x = repeat (2 ^ 31 + finf 32)%Z 5 /\ x_reduce_max noF X x = Ok (2 ^ 31 + finf 32 - 1)%Z.
Proof. exists f32x5, (repeat (repeat (2 ^ 31 + finf 32)%Z 4) 2). split; [apply f32x5_ok|]. split; [shp|]. split; reflexivity. Qed.
(** Reductions that go through the generic array reduction (floats with another functor; 1- and 2-byte integers without
    SSSE3): undefined behaviour when N is not a multiple of the native extent, ... *)
Theorem C19_reduce_generic_bounds_refuted F X g x : xty_ok X -> is_int (xT X) = false -> ~ full X ->
  x_reduce F X (ROther g) x = UB.
Proof.
  intros HX Hi Hf.
  assert (H4 : (4 <=? esz (xT X)) = true).
  { pose proof HX as (_ & HT & _). unfold ety_ok, is_int in *. destruct (ek (xT X)); [discriminate|]. lia. }
  unfold x_reduce, x_reduce4. rewrite H4, Hi. unfold reduce_impl. rewrite copy_to_vec_ub; auto.
  rewrite repeat_length. pose proof (dsz_spec HX). assert (dsz X * ext X <> xN X) by (intros E; apply Hf; apply M_full; auto). lia.
Qed.
(** ... and wrong values otherwise: the sum of 16 int8 ones without SSSE3. *)
Definition i8x16 : xty := {| xc := sse2; xT := {| esz := 1; ek := KInt false |}; xvs := 16; xN := 16 |}.
Theorem C19_reduce_generic_value_refuted :
  exists x, xty_ok i8x16 /\ shaped i8x16 x /\ fold_right Z.add 0%Z (elems i8x16 x) = 17%Z /\ x_reduce noF i8x16 RPlus x <> Ok 17%Z.
Proof.
  exists [1 :: 2 :: repeat 1 14]%Z. split; [xok|]. split; [shp|]. split; [reflexivity|]. vm_compute. discriminate.
Qed.
