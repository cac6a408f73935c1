(** C69: vectors of the x86 backend in constant expressions. *)
From Coq Require Import ZifyBool ZifyNat.
From Verif Require Import Base Cxx Generic GenericProofs Spec X86Vec X86 X86Lemmas X86Proofs X86Mem X86Reduce PropX86 GMath PropGMath CEval PropCEval CVec.
Set Implicit Arguments.
Local Open Scope nat_scope.

Section P.
Context {X : xty} (HX : xty_ok X).
Lemma c_xget_ok x i : shaped X x -> i < xN X -> i < ext X -> c_xget X x i = get (elems X x) i.
Proof. intros Hx Hi He. unfold c_xget. rewrite <- xget_elems by auto. unfold xget. rewrite Nat.mod_small by auto. reflexivity. Qed.
Lemma c_xget_ub x i : shaped X x -> ext X <= i -> c_xget X x i = UB.
Proof.
  intros Hx Hi. unfold c_xget. destruct (get x (i / ext X)) as [v|] eqn:E; auto. cbn [bind].
  assert (Hv : wfv X v). { apply get_ok, nth_error_In in E. destruct Hx as [_ Hx]. rewrite Forall_forall in Hx. auto. } destruct Hv as [Lv _]. apply get_ub. lia.
Qed.
Lemma c_copy_ok x : shaped X x -> xN X <= ext X -> c_copy_to X x (repeat 0%Z (xN X)) = Ok (elems X x).
Proof. intros Hx He. apply fill_list. { now apply elems_length. } intros i Hi. apply c_xget_ok; auto. lia. Qed.
Lemma c_copy_ub x : shaped X x -> ext X < xN X -> c_copy_to X x (repeat 0%Z (xN X)) = UB.
Proof. intros Hx He. unfold c_copy_to. apply fill_ub_iff. { now rewrite repeat_length. } exists (xN X - 1). split; [lia|]. apply c_xget_ub; auto. lia. Qed.
Lemma c_from_ub p : c_from_packed X p = UB.
Proof.
  unfold c_from_packed, c_copy_from, for_up. assert (xN X <> 0) by (destruct HX as (_ & _ & H & _); lia). destruct (xN X - 0) as [|n] eqn:E; [lia|]. cbn [for_n]. destruct (get p 0); reflexivity.
Qed.
Lemma reduce_elems op x : shaped X x -> xN X <= ext X -> c_reduce X op x = reduce 0%Z (xN X) op (elems X x).
Proof.
  intros Hx He. unfold c_reduce, reduce. rewrite c_copy_ok by auto. cbn [bind].
  assert (copy_to Ok (xN X) (elems X x) (repeat 0%Z (xN X)) 0 = Ok (elems X x)) as ->; [|reflexivity].
  apply (@fill_list X (fun i => y <- get (elems X x) i;; Ok y) (elems X x)). { now apply elems_length. } intros i Hi. destruct (get _ i); reflexivity.
Qed.
End P.

(** *** Theorems *)
(** Vectors that fit one register: reading an element is a constant expression with the right value, and reduce of up to 3 elements gives a regrouping of the N elements. *)
Theorem C69_single_register_partial : forall X x, xty_ok X -> xN X <= ext X -> shaped X x ->
  (forall i, i < xN X -> exists v, c_xget X x i = Ok v /\ nth_error (elems X x) i = Some v) /\
  (xN X <= 3 -> forall op v, c_reduce X op x = Ok v -> gsum op (elems X x) v) /\
  (xN X <= 3 -> forall op, (forall a b, exists c, op a b = Ok c) -> exists v, c_reduce X op x = Ok v).
Proof.
  intros X x HX He Hx. assert (Hl : length (elems X x) = xN X) by now apply elems_length. assert (Hn : 1 <= xN X) by (destruct HX as (_ & _ & H & _); lia). split; [|split].
  - intros i Hi. rewrite c_xget_ok by (auto; lia). destruct (get_lt_ok (elems X x) i) as [v Hv]; [lia|]. exists v. split; auto. now apply nth_get.
  - intros H3 op v. rewrite reduce_elems by auto. intros E. rewrite <- Hl in E. apply (@reduce_small _ 0%Z op); auto. lia.
  - intros H3 op D. rewrite reduce_elems by auto. rewrite <- Hl. apply reduce_small_defined; auto. lia.
Qed.
Print Assumptions C69_single_register_partial.
Example C69_case : xty_ok i32x4 /\ shaped i32x4 [[1; 2; 3; 4]]%Z /\ c_xget i32x4 [[1; 2; 3; 4]]%Z 2 = Ok 3%Z.
Proof. split; [xok|]. split; [shp|]. reflexivity. Qed.
(** From 4 elements on reduce is wrong: the sum of 1, 2, 3, 4 is 10 at run time and 9 in a constant expression; element 1 never contributes. *)
Theorem C69_reduce_refuted :
  (forall F, x_reduce4 F i32x4 RPlus [[1; 2; 3; 4]]%Z = Ok 10%Z) /\ c_reduce i32x4 (cxx_bin int32 OpAdd) [[1; 2; 3; 4]]%Z = Ok 9%Z /\
  forall X, xty_ok X -> 4 <= xN X <= ext X -> forall op x x' , shaped X x -> shaped X x' -> (forall i, i <> 1 -> nth_error (elems X x) i = nth_error (elems X x') i) -> c_reduce X op x = c_reduce X op x'.
Proof.
  split; [|split]; [vm_compute; reflexivity..|]. intros X HX [H4 He] op x x' Hx Hx' E. rewrite !reduce_elems by auto.
  pose proof (elems_length HX Hx) as L. pose proof (elems_length HX Hx') as L'. set (l := elems X x) in *. set (l' := elems X x') in *.
  destruct l as [|a [|b r]]; cbn [length] in L; try lia. destruct l' as [|a' [|b' r']]; cbn [length] in L'; try lia.
  assert (a' = a) as -> by (specialize (E 0 ltac:(lia)); cbn in E; congruence).
  assert (r' = r) as -> . { apply nth_ext_list; [lia|]. intros i _. symmetry. exact (E (S (S i)) ltac:(lia)). }
  rewrite <- L. replace (S (S (length r))) with (2 + length r) by lia. apply reduce_ignores_1. lia.
Qed.
Print Assumptions C69_reduce_refuted.
(** Vectors of more than one register: reading an element outside the first register, converting and reducing are not constant expressions. *)
Theorem C69_registers_refuted : forall X x, xty_ok X -> ext X < xN X -> shaped X x ->
  (forall i, ext X <= i < xN X -> c_xget X x i = UB) /\ c_to_packed X x = UB /\ forall op, c_reduce X op x = UB.
Proof.
  intros X x HX He Hx. split; [|split].
  - intros i Hi. apply c_xget_ub; auto. lia.
  - unfold c_to_packed. now rewrite c_copy_ub.
  - intros op. unfold c_reduce. now rewrite c_copy_ub.
Qed.
Print Assumptions C69_registers_refuted.
(** Every function that returns a vector - operators, conversions, blend, min/max, all of the math library - fails in a constant expression, for every size and
    argument, whatever its portable version computes: the conversion back writes through a reinterpret_cast. *)
Theorem C69_vector_results_refuted : forall X a b c, xty_ok X ->
  (forall G, c_fun1 X G a = UB) /\ (forall G, c_fun2 X G a b = UB) /\ (forall G, c_fun3 X G a b c = UB).
Proof.
  intros X a b c HX. unfold c_fun1, c_fun2, c_fun3. split; [|split]; intros G.
  - destruct (c_to_packed X a) as [p|]; auto. cbn [bind]. destruct (G p); auto. cbn [bind]. now apply c_from_ub.
  - destruct (c_to_packed X a) as [p|]; auto. cbn [bind]. destruct (c_to_packed X b) as [q|]; auto. cbn [bind]. destruct (G p q); auto. cbn [bind]. now apply c_from_ub.
  - destruct (c_to_packed X a) as [p|]; auto. cbn [bind]. destruct (c_to_packed X b) as [q|]; auto. cbn [bind]. destruct (c_to_packed X c) as [s|]; auto. cbn [bind]. destruct (G p q s); auto. cbn [bind]. now apply c_from_ub.
Qed.
Print Assumptions C69_vector_results_refuted.
Example C69_refuted_case : c_to_packed i32x4 [[1; 2; 3; 4]]%Z = Ok [1; 2; 3; 4]%Z /\ c_fun1 i32x4 Ok [[1; 2; 3; 4]]%Z = UB /\ c_to_packed i32x6 va = UB.
Proof. repeat split. Qed.
