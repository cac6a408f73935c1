(** C64: functions of generic/math.hpp called with x86 vectors.  C65: mask reductions of the x86 backend in constant evaluation. *)
From Coq Require Import ZifyBool ZifyNat.
From Verif Require Import Base Cxx Generic GenericProofs Spec X86Vec X86 X86Lemmas X86Proofs X86Mem PropX86 GMath PropGMath CEval.
Set Implicit Arguments.
Local Open Scope nat_scope.

(** *** C64 *)
Section V.
Context {X : xty} (HX : xty_ok X).
Lemma fill_list (h : nat -> res Z) l : length l = xN X -> (forall i, i < xN X -> h i = get l i) -> fill (xN X) h (repeat 0%Z (xN X)) = Ok l.
Proof. intros. now apply fill_fresh. Qed.
Lemma build_ok l : xN X mod ext X = 0 -> length l = xN X -> words (xw X) l ->
  exists d, x_copy_from X Ok true l 0 (zeros X) = Ok d /\ shaped X d /\ elems X d = l.
Proof.
  intros Hf HL Hw. destruct (@C22_x86_vector_aligned_partial X l 0 (zeros X) HX Hf (zeros_shaped HX) Hw ltac:(lia)) as [(d & E & S & Q) _].
  exists d. repeat split; auto; try apply S. rewrite Q. cbn [skipn]. now apply firstn_exact.
Qed.
Lemma build_ub l : xN X mod ext X <> 0 -> length l = xN X -> x_copy_from X Ok true l 0 (zeros X) = UB.
Proof. intros Hf HL. apply (@C22_x86_vector_aligned_refuted X l 0 (zeros X) HX Hf). lia. Qed.
Lemma gx1_fill g x : shaped X x -> fill (xN X) (fun i => v <- xget X x i;; Ok (g v)) (repeat 0%Z (xN X)) = Ok (map g (elems X x)).
Proof.
  intros Hx. apply fill_list. { rewrite map_length. now apply elems_length. } intros i Hi. rewrite xget_elems by auto. rewrite get_map. reflexivity.
Qed.
Lemma gx2_fill g a b : shaped X a -> shaped X b ->
  fill (xN X) (fun i => u <- xget X a i;; v <- xget X b i;; Ok (g u v)) (repeat 0%Z (xN X)) = Ok (map (fun p => g (fst p) (snd p)) (combine (elems X a) (elems X b))).
Proof.
  intros Ha Hb. pose proof (elems_length HX Ha) as La. pose proof (elems_length HX Hb) as Lb. apply fill_list. { rewrite map_length, combine_length. lia. }
  intros i Hi. rewrite !xget_elems by auto. destruct (get_lt_ok (elems X a) i ltac:(lia)) as [u Hu]. destruct (get_lt_ok (elems X b) i ltac:(lia)) as [v Hv].
  rewrite get_map, (get_combine _ _ _ _ _ Hu Hv), Hu, Hv. reflexivity.
Qed.
Lemma gx3_fill g a b c : shaped X a -> shaped X b -> shaped X c ->
  fill (xN X) (fun i => u <- xget X a i;; v <- xget X b i;; w <- xget X c i;; Ok (g u v w)) (repeat 0%Z (xN X))
  = Ok (map (fun p => g (fst (fst p)) (snd (fst p)) (snd p)) (combine (combine (elems X a) (elems X b)) (elems X c))).
Proof.
  intros Ha Hb Hc. pose proof (elems_length HX Ha) as La. pose proof (elems_length HX Hb) as Lb. pose proof (elems_length HX Hc) as Lc. apply fill_list. { rewrite map_length, !combine_length. lia. }
  intros i Hi. rewrite !xget_elems by auto. destruct (get_lt_ok (elems X a) i ltac:(lia)) as [u Hu]. destruct (get_lt_ok (elems X b) i ltac:(lia)) as [v Hv]. destruct (get_lt_ok (elems X c) i ltac:(lia)) as [w Hw].
  rewrite get_map, (get_combine _ _ _ _ _ (get_combine _ _ _ _ _ Hu Hv) Hw), Hu, Hv, Hw. reflexivity.
Qed.
End V.
(** When size() is a multiple of the lane count, a function without x86 overload applies the scalar function to every element ... *)
Theorem C64_generic_on_x86_partial : forall X, xty_ok X -> xN X mod ext X = 0 ->
  (forall g x, shaped X x -> (forall v, word (xw X) (g v)) -> exists r, gx1 X 0 g x = Ok r /\ shaped X r /\ elems X r = map g (elems X x)) /\
  (forall g a b, shaped X a -> shaped X b -> (forall u v, word (xw X) (g u v)) ->
     exists r, gx2 X 0 g a b = Ok r /\ shaped X r /\ elems X r = map (fun p => g (fst p) (snd p)) (combine (elems X a) (elems X b))) /\
  (forall g a b c, shaped X a -> shaped X b -> shaped X c -> (forall u v w, word (xw X) (g u v w)) ->
     exists r, gx3 X 0 g a b c = Ok r /\ shaped X r /\
       elems X r = map (fun p => g (fst (fst p)) (snd (fst p)) (snd p)) (combine (combine (elems X a) (elems X b)) (elems X c))).
Proof.
  intros X HX Hf. split; [|split].
  - intros g x Hx Hg. unfold gx1. rewrite gx1_fill by auto. cbn [bind]. apply build_ok; auto. { rewrite map_length. now apply elems_length. }
    apply Forall_forall. intros v Hv. apply in_map_iff in Hv. destruct Hv as (u & <- & _). auto.
  - intros g a b Ha Hb Hg. unfold gx2. rewrite gx2_fill by auto. cbn [bind]. apply build_ok; auto. { rewrite map_length, combine_length, !elems_length by auto. lia. }
    apply Forall_forall. intros v Hv. apply in_map_iff in Hv. destruct Hv as (u & <- & _). auto.
  - intros g a b c Ha Hb Hc Hg. unfold gx3. rewrite gx3_fill by auto. cbn [bind]. apply build_ok; auto. { rewrite map_length, !combine_length, !elems_length by auto. lia. }
    apply Forall_forall. intros v Hv. apply in_map_iff in Hv. destruct Hv as (u & <- & _). auto.
Qed.
Print Assumptions C64_generic_on_x86_partial.
(** ... for every other size the result array is read past its end (for every argument). *)
Theorem C64_generic_on_x86_refuted : forall X, xty_ok X -> xN X mod ext X <> 0 ->
  (forall g x, shaped X x -> gx1 X 0 g x = UB) /\
  (forall g a b, shaped X a -> shaped X b -> gx2 X 0 g a b = UB) /\
  (forall g a b c, shaped X a -> shaped X b -> shaped X c -> gx3 X 0 g a b c = UB).
Proof.
  intros X HX Hf. split; [|split].
  - intros g x Hx. unfold gx1. rewrite gx1_fill by auto. apply build_ub; auto. rewrite map_length. now apply elems_length.
  - intros g a b Ha Hb. unfold gx2. rewrite gx2_fill by auto. apply build_ub; auto. rewrite map_length, combine_length, !elems_length by auto. lia.
  - intros g a b c Ha Hb Hc. unfold gx3. rewrite gx3_fill by auto. apply build_ub; auto. rewrite map_length, !combine_length, !elems_length by auto. lia.
Qed.
Print Assumptions C64_generic_on_x86_refuted.
Example C64_case : gx1 i32x6 0 (fun v => (v + 1) mod 2 ^ 32)%Z va = UB.
Proof. reflexivity. Qed.

(** *** C65 *)
Section M.
Context {X : xty} (HX : xty_ok X).
Lemma c_get m i : shaped X m -> i < xN X -> i < ext X -> c_mget X m i = get (mask_elems X m) i.
Proof.
  intros Hm Hi He. unfold c_mget, c_xget, mask_elems. rewrite get_map. unfold rmap. rewrite <- xget_elems by auto. unfold xget. rewrite Nat.mod_small by auto. reflexivity.
Qed.
Lemma c_get_ub m i : shaped X m -> ext X <= i -> c_mget X m i = UB.
Proof.
  intros Hm Hi. unfold c_mget, c_xget. destruct (get m (i / ext X)) as [v|] eqn:E; auto. cbn [bind].
  assert (Hv : wfv X v). { apply get_ok, nth_error_In in E. destruct Hm as [_ Hm]. rewrite Forall_forall in Hm. auto. } destruct Hv as [Lv _].
  assert (get v i = UB) as -> by (apply get_ub; lia). reflexivity.
Qed.
Lemma mlen m : shaped X m -> length (mask_elems X m) = xN X.
Proof. intros. unfold mask_elems. rewrite map_length. now apply elems_length. Qed.
Lemma c_find_up_eq m n i : shaped X m -> xN X <= ext X -> i + n <= xN X -> c_find_up X n i m = find_up n i (mask_elems X m) (xN X).
Proof. intros Hm He. revert i. induction n as [|n IH]; intros i Hi; cbn [c_find_up find_up]; auto. rewrite c_get by (auto; lia). destruct (get _ i) as [[]|]; cbn [bind]; auto. apply IH. lia. Qed.
Lemma c_find_down_spec m n : shaped X m -> xN X <= ext X -> n <= xN X -> 0 < n ->
  (exists j, 0 < j < n /\ nth_error (mask_elems X m) j = Some true /\ (forall k, j < k < n -> nth_error (mask_elems X m) k = Some false) /\ c_find_down X n m = Ok j) \/
  ((forall k, 0 < k < n -> nth_error (mask_elems X m) k = Some false) /\ c_find_down X n m = Ok (xN X)).
Proof.
  intros Hm He. induction n as [|n IH]; intros Hn Hp; [lia|]. cbn [c_find_down]. destruct (Nat.eqb_spec n 0) as [-> |Nz]. { right. split; [intros; lia|reflexivity]. }
  rewrite c_get by (auto; lia). destruct (get_lt_ok (mask_elems X m) n) as [b Hb]. { rewrite mlen by auto. lia. } rewrite Hb. cbn [bind]. apply nth_get in Hb.
  destruct b. { left. exists n. split; [lia|split; [exact Hb|split; [intros; lia|reflexivity]]]. }
  destruct IH as [(j & Hj & Tj & Fj & Ej)|[Fj Ej]]; try lia.
  - left. exists j. split; [lia|split; [auto|split; [|auto]]]. intros k Hk. destruct (Nat.eq_dec k n) as [-> |]; auto. apply Fj. lia.
  - right. split; auto. intros k Hk. destruct (Nat.eq_dec k n) as [-> |]; auto. apply Fj. lia.
Qed.
End M.
(** Masks that fit one register: every reduction gives the right value in constant evaluation, except that reduce_max_index never reports index 0. *)
Theorem C65_single_register_partial : forall X m, xty_ok X -> xN X <= ext X -> shaped X m ->
  (exists r, c_all_of X m = Ok r /\ (r = true <-> forall i, i < xN X -> nth_error (mask_elems X m) i = Some true)) /\
  (exists r, c_any_of X m = Ok r /\ (r = true <-> exists i, i < xN X /\ nth_error (mask_elems X m) i = Some true)) /\
  (exists r, c_none_of X m = Ok r /\ (r = true <-> forall i, i < xN X -> nth_error (mask_elems X m) i = Some false)) /\
  (exists r, c_some_of X m = Ok r /\ (r = true <-> (exists i, i < xN X /\ nth_error (mask_elems X m) i = Some true) /\ (exists i, i < xN X /\ nth_error (mask_elems X m) i = Some false))) /\
  c_reduce_count X m = Ok (count_true (mask_elems X m)) /\
  (forall i, first_true (mask_elems X m) i -> c_reduce_min_index X m = Ok i) /\
  (forall i, last_true (mask_elems X m) i -> 0 < i -> c_reduce_max_index X m = Ok i).
Proof.
  intros X m HX He Hm. pose proof (mlen HX Hm) as HL.
  assert (EA : c_all_of X m = all_of (xN X) (mask_elems X m)). { apply for_up_ext. intros j t Hj. now rewrite c_get by (auto; lia). }
  assert (EO : c_any_of X m = any_of (xN X) (mask_elems X m)). { apply for_up_ext. intros j t Hj. now rewrite c_get by (auto; lia). }
  assert (EC : c_reduce_count X m = reduce_count (xN X) (mask_elems X m)). { apply for_up_ext. intros j t Hj. now rewrite c_get by (auto; lia). }
  destruct (all_of_spec _ _ HL) as (a & Ea & Ha). destruct (any_of_spec _ _ HL) as (o & Eo & Ho).
  split; [|split; [|split; [|split; [|split; [|split]]]]].
  - rewrite EA. eauto.
  - rewrite EO. eauto.
  - unfold c_none_of. rewrite EO. exact (none_of_spec _ _ HL).
  - unfold c_some_of. rewrite EO, Eo. cbn [bind]. destruct o.
    + rewrite EA, Ea. cbn [bind]. exists (negb a). split; auto. rewrite <- Ho. destruct a; cbn [negb].
      * split; [discriminate|]. intros (_ & i & Hi & F). rewrite (proj1 Ha eq_refl i Hi) in F. discriminate.
      * split; [intros _; split; auto|auto]. destruct (none_of_spec (xN X) (map negb (mask_elems X m))) as (r & Er & Hr). { now rewrite map_length. }
        destruct (any_of_spec (xN X) (map negb (mask_elems X m))) as (r2 & Er2 & Hr2). { now rewrite map_length. }
        unfold none_of in Er. rewrite Er2 in Er. cbn [bind] in Er. inversion Er; subst r. destruct r2.
        { destruct (proj1 Hr2 eq_refl) as (i & Hi & Ti). exists i. split; auto. rewrite nth_error_map in Ti. destruct (nth_error (mask_elems X m) i) as [[]|]; try discriminate. auto. }
        exfalso. cbn [negb] in Hr. assert (Q : false = true); [|discriminate]. apply Ha. intros i Hi. pose proof (proj1 Hr eq_refl i Hi) as G. rewrite nth_error_map in G.
        destruct (nth_error (mask_elems X m) i) as [[]|]; try discriminate; auto.
    + exists false. split; auto. split; [discriminate|]. intros [Q _]. apply Ho in Q. discriminate.
  - rewrite EC. now apply reduce_count_spec.
  - intros i Hi. unfold c_reduce_min_index. rewrite c_find_up_eq by (auto; lia). now apply (reduce_min_index_spec _ _ HL).
  - intros i [Ti Fi] Hp. unfold c_reduce_max_index. assert (Hi : i < xN X). { rewrite <- HL. apply nth_error_Some. congruence. }
    destruct (@c_find_down_spec X HX m (xN X) Hm He) as [(j & Hj & Tj & Fj & Ej)|[Fj Ej]]; try lia.
    + rewrite Ej. f_equal. destruct (Nat.lt_trichotomy i j) as [L|[L|L]]; auto. { rewrite Fi in Tj by lia. discriminate. } rewrite Fj in Ti by lia. discriminate.
    + rewrite Fj in Ti by lia. discriminate.
Qed.
Print Assumptions C65_single_register_partial.
(** reduce_max_index of a mask whose only true element is the first gives N in constant evaluation (0 is right). *)
Theorem C65_max_index_refuted : forall X m, xty_ok X -> xN X <= ext X -> shaped X m -> last_true (mask_elems X m) 0 -> c_reduce_max_index X m = Ok (xN X).
Proof.
  intros X m HX He Hm [T F]. unfold c_reduce_max_index. pose proof (mlen HX Hm) as HL. assert (0 < xN X). { rewrite <- HL. apply nth_error_Some. congruence. }
  destruct (@c_find_down_spec X HX m (xN X) Hm He) as [(j & Hj & Tj & Fj & Ej)|[Fj Ej]]; try lia; auto. rewrite F in Tj by lia. discriminate.
Qed.
Print Assumptions C65_max_index_refuted.
(** Masks of more than one register: reading any element of a later register is an error in constant evaluation, hence so are the reductions. *)
Theorem C65_registers_refuted : forall X m, xty_ok X -> ext X < xN X -> shaped X m ->
  (forall i, ext X <= i < xN X -> c_mget X m i = UB) /\ c_all_of X m = UB /\ c_any_of X m = UB /\ c_none_of X m = UB /\ c_some_of X m = UB /\ c_reduce_count X m = UB /\ c_reduce_max_index X m = UB.
Proof.
  intros X m HX He Hm. assert (Hu : c_mget X m (xN X - 1) = UB) by (apply c_get_ub; auto; lia).
  assert (K : forall A (h : bool -> A -> A) s, for_up 0 (xN X) (fun i r => b <- c_mget X m i;; Ok (h b r)) s = UB).
  { intros A h s. replace (xN X) with (xN X - 1 + 1) by lia. rewrite for_up_snoc. destruct (for_up _ _ _ _); cbn [bind]; auto. now rewrite Hu. }
  assert (KO : c_any_of X m = UB) by (apply (K bool (fun b r => r || b) false)).
  repeat split.
  - intros i [Hi _]. now apply c_get_ub.
  - apply (K bool (fun b r => r && b) true).
  - exact KO.
  - unfold c_none_of. now rewrite KO.
  - unfold c_some_of. now rewrite KO.
  - apply (K nat (fun b r => r + Nat.b2n b) 0).
  - unfold c_reduce_max_index. assert (0 < ext X) by (pose proof (e_pos HX); lia). destruct (xN X) as [|n] eqn:E; [lia|]. cbn [c_find_down]. replace (n =? 0) with false by lia. replace (S n - 1) with n in Hu by lia. now rewrite Hu.
Qed.
Print Assumptions C65_registers_refuted.
Example C65_case : shaped i32x6 va /\ ext i32x6 = 4 /\ c_all_of i32x6 va = UB.
Proof. split; [|split; reflexivity]. split; [reflexivity|]. repeat constructor; cbn; lia. Qed.
Definition i32x4 : xty := {| xc := sse2; xT := {| esz := 4; ek := KInt true |}; xvs := 16; xN := 4 |}.
Example C65_case_one : let m := [[0; 0xFFFFFFFF; 0; 0]]%Z in let m0 := [[0xFFFFFFFF; 0; 0; 0]]%Z in
  xty_ok i32x4 /\ shaped i32x4 m /\ c_any_of i32x4 m = Ok true /\ c_reduce_count i32x4 m = Ok 1 /\ c_reduce_max_index i32x4 m = Ok 1 /\ c_reduce_max_index i32x4 m0 = Ok 4.
Proof. split; [xok|]. split; [shp|]. repeat split. Qed.
