(** Proofs about the generic backend model. *)
From Coq Require Import Permutation ZifyBool ZifyNat.
From Verif Require Import Base Cxx Generic Spec.

Lemma nth_get {A} (l : list A) i v : nth_error l i = Some v <-> get l i = Ok v.
Proof. symmetry; apply get_ok. Qed.

Lemma copy_from_fill {A B} (conv : A -> res B) N mem p d :
  copy_from conv N mem p d = fill N (fun i => x <- get mem (p + i);; conv x) d.
Proof. reflexivity. Qed.

Lemma from_result_ok {A} (zero : A) N f r :
  from_result zero N f = Ok r <-> length r = N /\ forall i, i < N -> f i = get r i.
Proof.
  unfold from_result. rewrite bind_ok. setoid_rewrite copy_from_fill.
  assert (HL : N <= length (repeat zero N)) by (rewrite repeat_length; auto).
  split.
  - intros (t & Ht & Hr).
    apply fill_ok_iff in Ht; auto. apply fill_ok_iff in Hr; auto.
    rewrite repeat_length in *. destruct Ht as (H1 & H2 & _), Hr as (K1 & K2 & _).
    split; auto. intros i Hi. rewrite H2, <- K2 by auto. simpl. rewrite bind_ret; auto.
  - intros (H1 & H2). exists r. split; apply fill_ok_iff; auto; rewrite repeat_length; repeat split; auto.
    + intros i Hi. rewrite !(proj2 (get_ub _ _)); rewrite ?repeat_length; auto; lia.
    + intros i Hi. simpl. rewrite bind_ret; auto.
    + intros i Hi. rewrite !(proj2 (get_ub _ _)); rewrite ?repeat_length; auto; lia.
Qed.
Lemma from_result_ub {A} (zero : A) N f :
  from_result zero N f = UB <-> exists i, i < N /\ f i = UB.
Proof.
  split.
  - intros H. rewrite <- (fill_ub_iff N f (repeat zero N)) by (rewrite repeat_length; auto).
    destruct (fill N f (repeat zero N)) as [r|] eqn:E; auto.
    apply fill_ok_iff in E; [|rewrite repeat_length; auto]. rewrite repeat_length in E.
    assert (from_result zero N f = Ok r) by (apply from_result_ok; tauto). congruence.
  - intros (i & Hi & Hf). destruct (from_result zero N f) eqn:E; auto.
    apply from_result_ok in E. destruct E as (H1 & H2). specialize (H2 i Hi). rewrite Hf in H2.
    symmetry in H2. apply get_ub in H2. lia.
Qed.

Lemma from_result_elementwise1 {A B} (zero : B) N (f : A -> res B) a :
  length a = N -> elementwise1 N f a (from_result zero N (fun i => x <- get a i;; f x)).
Proof.
  intros HL. destruct (from_result zero N _) as [r|] eqn:E; simpl.
  - apply from_result_ok in E. destruct E as (H1 & H2). split; auto.
    intros i x Hi Hx. apply nth_get in Hx. specialize (H2 i Hi). rewrite Hx in H2; simpl in H2.
    destruct (get_lt_ok r i ltac:(lia)) as [y Hy]. exists y. split; [congruence|]. apply nth_get; auto.
  - apply from_result_ub in E. destruct E as (i & Hi & Hf).
    destruct (get_lt_ok a i ltac:(lia)) as [x Hx]. rewrite Hx in Hf; simpl in Hf.
    exists i, x. repeat split; auto. apply nth_get; auto.
Qed.
Lemma from_result_elementwise2 {A B C} (zero : C) N (f : A -> B -> res C) a b :
  length a = N -> length b = N ->
  elementwise2 N f a b (from_result zero N (fun i => x <- get a i;; y <- get b i;; f x y)).
Proof.
  intros HL HL'. destruct (from_result zero N _) as [r|] eqn:E; simpl.
  - apply from_result_ok in E. destruct E as (H1 & H2). split; auto.
    intros i x y Hi Hx Hy. apply nth_get in Hx, Hy. specialize (H2 i Hi). rewrite Hx, Hy in H2; simpl in H2.
    destruct (get_lt_ok r i ltac:(lia)) as [z Hz]. exists z. split; [congruence|]. apply nth_get; auto.
  - apply from_result_ub in E. destruct E as (i & Hi & Hf).
    destruct (get_lt_ok a i ltac:(lia)) as [x Hx]. destruct (get_lt_ok b i ltac:(lia)) as [y Hy].
    rewrite Hx, Hy in Hf; simpl in Hf.
    exists i, x, y. repeat split; auto; apply nth_get; auto.
Qed.
Lemma from_result_elementwise3 {A B C D} (zero : D) N (f : A -> B -> C -> res D) a b c :
  length a = N -> length b = N -> length c = N ->
  elementwise3 N f a b c (from_result zero N (fun i => x <- get a i;; y <- get b i;; z <- get c i;; f x y z)).
Proof.
  intros HL HL' HL''. destruct (from_result zero N _) as [r|] eqn:E; simpl.
  - apply from_result_ok in E. destruct E as (H1 & H2). split; auto.
    intros i x y z Hi Hx Hy Hz. apply nth_get in Hx, Hy, Hz. specialize (H2 i Hi). rewrite Hx, Hy, Hz in H2; simpl in H2.
    destruct (get_lt_ok r i ltac:(lia)) as [v Hv]. exists v. split; [congruence|]. apply nth_get; auto.
  - apply from_result_ub in E. destruct E as (i & Hi & Hf).
    destruct (get_lt_ok a i ltac:(lia)) as [x Hx]. destruct (get_lt_ok b i ltac:(lia)) as [y Hy].
    destruct (get_lt_ok c i ltac:(lia)) as [z Hz].
    rewrite Hx, Hy, Hz in Hf; simpl in Hf.
    exists i, x, y, z. repeat split; auto; apply nth_get; auto.
Qed.

(** ** C01: operators *)
Lemma simd_binary_elementwise T o N a b :
  length a = N -> length b = N -> elementwise2 N (sc_bin T o) a b (simd_binary T o N a b).
Proof. intros; apply from_result_elementwise2; auto. Qed.
Lemma simd_binary_s_elementwise T o N a b :
  length a = N -> elementwise1 N (fun x => sc_bin T o x b) a (simd_binary_s T o N a b).
Proof. intros. apply (from_result_elementwise1 _ N (fun x => sc_bin T o x b)); auto. Qed.
Lemma simd_shift_s_elementwise T left N a n :
  length a = N -> elementwise1 N (fun x => sc_shift T left x n) a (simd_shift_s T left N a n).
Proof. intros. apply (from_result_elementwise1 _ N (fun x => sc_shift T left x n)); auto. Qed.
Lemma simd_neg_elementwise T N a : length a = N -> elementwise1 N (sc_neg T) a (simd_neg T N a).
Proof. intros; apply from_result_elementwise1; auto. Qed.
Lemma simd_not_elementwise T N a : length a = N -> elementwise1 N (sc_not T) a (simd_not T N a).
Proof. intros; apply from_result_elementwise1; auto. Qed.
Lemma simd_assign_elementwise T o N a b :
  o <> OpShl -> o <> OpShr ->
  length a = N -> length b = N -> elementwise2 N (sc_bin T o) a b (simd_assign T o N a b).
Proof.
  intros H1 H2 Ha Hb. unfold simd_assign.
  replace (match o with OpShl => OpShr | OpShr => OpShl | o0 => o0 end) with o by (destruct o; congruence).
  apply simd_binary_elementwise; auto.
Qed.

(** ** C02, C03 *)
Lemma simd_cmp_elementwise T o N a b :
  length a = N -> length b = N ->
  elementwise2 N (fun x y => Ok (sc_cmp T o x y)) a b (simd_cmp T o N a b).
Proof. intros. apply (from_result_elementwise2 _ N (fun x y => Ok (sc_cmp T o x y))); auto. Qed.
Lemma simd_lnot_elementwise T N a :
  length a = N -> elementwise1 N (fun x => Ok (sc_lnot T x)) a (simd_lnot T N a).
Proof. intros. apply (from_result_elementwise1 _ N (fun x => Ok (sc_lnot T x))); auto. Qed.

Lemma elementwise2_total {A B C} N (f g : A -> B -> C) a b r :
  (forall x y, f x y = g x y) ->
  elementwise2 N (fun x y => Ok (f x y)) a b r -> elementwise2 N (fun x y => Ok (g x y)) a b r.
Proof.
  intros H. destruct r; simpl.
  - intros (HL & HE). split; auto. intros i x y Hi Hx Hy.
    destruct (HE i x y Hi Hx Hy) as (z & Hz & Hr). exists z. rewrite <- H. auto.
  - intros (i & x & y & _ & _ & _ & E). discriminate.
Qed.
Definition mask_bin_meaning (o : mask_bin) (x y : bool) : bool :=
  match o with
  | MAnd | MLAnd => andb x y
  | MOr | MLOr => orb x y
  | MXor | MNe => xorb x y
  | MEq => negb (xorb x y)
  end.
Lemma mask_binary_elementwise o N a b :
  length a = N -> length b = N ->
  elementwise2 N (fun x y => Ok (mask_bin_meaning o x y)) a b (mask_binary o N a b).
Proof.
  intros Ha Hb. unfold mask_binary.
  eapply elementwise2_total; [|apply (from_result_elementwise2 false N
    (fun x y => Ok (match o with
    | MAnd => andb | MOr => orb | MXor => bool_bitxor | MLAnd => andb | MLOr => orb
    | MEq => Bool.eqb | MNe => fun x y => negb (Bool.eqb x y) end x y))); auto].
  intros x y; destruct o, x, y; reflexivity.
Qed.
Lemma mask_not_elementwise N a :
  length a = N -> elementwise1 N (fun x => Ok (negb x)) a (mask_unary MNot N a).
Proof. intros. apply (from_result_elementwise1 false N (fun x => Ok (negb x))); auto. Qed.
Lemma bool_bitnot_true b : bool_bitnot b = true.
Proof. destruct b; reflexivity. Qed.
Lemma mask_bitnot_all_true N a :
  length a = N -> mask_unary MBitNot N a = Ok (repeat true N) /\ mask_unary MNeg N a = Ok (repeat true N).
Proof.
  intros HL. cut (from_result false N (fun i => v <- get a i;; Ok (bool_bitnot v)) = Ok (repeat true N)); [auto|].
  apply from_result_ok. rewrite repeat_length. split; auto. intros i Hi.
  destruct (get_lt_ok a i ltac:(lia)) as [v Hv]. rewrite Hv. simpl. rewrite bool_bitnot_true, get_repeat; auto.
Qed.

(** ** C04 *)
Lemma firstn_snoc {A} (l : list A) i v : get l i = Ok v -> firstn (i + 1) l = firstn i l ++ [v].
Proof.
  revert l; induction i as [|i IH]; intros l H; destruct l as [|x l];
    try (apply get_ok_lt in H; simpl in H; lia).
  - rewrite get_cons_0 in H. inversion H; reflexivity.
  - rewrite get_cons_S in H. simpl. f_equal. apply IH; auto.
Qed.
Lemma firstn_exact {A} (l : list A) N : length l = N -> firstn N l = l.
Proof. intros <-. apply firstn_all. Qed.

Lemma all_of_spec N m : length m = N ->
  exists r, all_of N m = Ok r /\ (r = true <-> forall i, i < N -> nth_error m i = Some true).
Proof.
  intros HL. unfold all_of.
  destruct (for_up_inv (fun k r => r = forallb (fun b => b) (firstn k m)) 0 N
    (fun i r => b <- get m i;; Ok (r && b)) true) as (r & Hr & HP); auto; try lia.
  - intros j t Hj Ht. destruct (get_lt_ok m j ltac:(lia)) as [v Hv]. rewrite Hv. simpl.
    exists (t && v). split; auto. rewrite (firstn_snoc _ _ _ Hv), forallb_app. simpl. rewrite andb_true_r. congruence.
  - exists r. split; auto. rewrite HP, firstn_exact by auto. rewrite forallb_forall. split.
    + intros H i Hi. destruct (get_lt_ok m i ltac:(lia)) as [v Hv]. apply nth_get in Hv. rewrite Hv. f_equal.
      apply H. eapply nth_error_In; eauto.
    + intros H x Hx. apply In_nth_error in Hx. destruct Hx as [i Hi].
      assert (i < N) by (rewrite <- HL; apply nth_error_Some; congruence).
      rewrite H in Hi by auto. congruence.
Qed.
Lemma any_of_spec N m : length m = N ->
  exists r, any_of N m = Ok r /\ (r = true <-> exists i, i < N /\ nth_error m i = Some true).
Proof.
  intros HL. unfold any_of.
  destruct (for_up_inv (fun k r => r = existsb (fun b => b) (firstn k m)) 0 N
    (fun i r => b <- get m i;; Ok (r || b)) false) as (r & Hr & HP); auto; try lia.
  - intros j t Hj Ht. destruct (get_lt_ok m j ltac:(lia)) as [v Hv]. rewrite Hv. simpl.
    exists (t || v). split; auto. rewrite (firstn_snoc _ _ _ Hv), existsb_app. simpl. rewrite orb_false_r. congruence.
  - exists r. split; auto. rewrite HP, firstn_exact by auto. rewrite existsb_exists. split.
    + intros (x & Hx & ->). apply In_nth_error in Hx. destruct Hx as [i Hi]. exists i. split; auto.
      rewrite <- HL; apply nth_error_Some; congruence.
    + intros (i & Hi & H). exists true. split; auto. eapply nth_error_In; eauto.
Qed.
Lemma none_of_spec N m : length m = N ->
  exists r, none_of N m = Ok r /\ (r = true <-> forall i, i < N -> nth_error m i = Some false).
Proof.
  intros HL. unfold none_of. destruct (any_of_spec N m HL) as (r & Hr & HP). rewrite Hr. simpl.
  exists (negb r). split; auto. split.
  - intros H i Hi. destruct (get_lt_ok m i ltac:(lia)) as [v Hv]. apply nth_get in Hv.
    destruct v; auto. destruct r; [discriminate|].
    assert (false = true) by (apply HP; eauto). discriminate.
  - intros H. destruct r; auto. destruct (proj1 HP eq_refl) as (i & Hi & H'). rewrite H in H' by auto. discriminate.
Qed.
Lemma some_of_spec N m : length m = N ->
  exists r, some_of N m = Ok r /\
    (r = true <-> (exists i, i < N /\ nth_error m i = Some true) /\ (exists i, i < N /\ nth_error m i = Some false)).
Proof.
  intros HL. unfold some_of.
  destruct (for_up_inv (fun k s => s = (existsb (fun b => b) (firstn k m), forallb (fun b => b) (firstn k m))) 0 N
    (fun i s => b <- get m i;; Ok (fst s || b, snd s && b)) (false, true)) as (r & Hr & HP); auto; try lia.
  - intros j t Hj Ht. destruct (get_lt_ok m j ltac:(lia)) as [v Hv]. rewrite Hv. simpl. subst t.
    eexists; split; eauto. rewrite (firstn_snoc _ _ _ Hv), existsb_app, forallb_app. simpl.
    rewrite orb_false_r, andb_true_r. reflexivity.
  - rewrite Hr, HP, firstn_exact by auto. simpl. eexists; split; eauto.
    rewrite andb_true_iff, negb_true_iff, existsb_exists.
    assert (E1 : (exists x, In x m /\ x = true) <-> exists i, i < N /\ nth_error m i = Some true).
    { split.
      - intros (x & Hx & ->). apply In_nth_error in Hx. destruct Hx as [i Hi]. exists i. split; auto.
        rewrite <- HL; apply nth_error_Some; congruence.
      - intros (i & Hi & H). exists true. split; auto. eapply nth_error_In; eauto. }
    assert (E2 : forallb (fun b => b) m = false <-> exists i, i < N /\ nth_error m i = Some false).
    { split.
      - intros H. assert (E : exists x, In x m /\ x = false).
        { clear -H. induction m as [|x m IH]; simpl in H; [discriminate|].
          destruct x; simpl in H; [destruct (IH H) as (y & Hy & E); exists y; simpl; auto|exists false; simpl; auto]. }
        destruct E as (x & Hx & ->). apply In_nth_error in Hx. destruct Hx as [i Hi]. exists i. split; auto.
        rewrite <- HL; apply nth_error_Some; congruence.
      - intros (i & Hi & H). destruct (forallb (fun b => b) m) eqn:E; auto.
        rewrite forallb_forall in E. specialize (E false (nth_error_In _ _ H)). discriminate. }
    rewrite E1, E2. tauto.
Qed.
Lemma reduce_count_spec N m : length m = N -> reduce_count N m = Ok (count_true m).
Proof.
  intros HL. unfold reduce_count.
  destruct (for_up_inv (fun k r => r = count_true (firstn k m)) 0 N
    (fun i r => b <- get m i;; Ok (r + Nat.b2n b)) 0) as (r & Hr & HP); auto; try lia.
  - intros j t Hj Ht. destruct (get_lt_ok m j ltac:(lia)) as [v Hv]. rewrite Hv. simpl.
    eexists; split; eauto. rewrite (firstn_snoc _ _ _ Hv). unfold count_true in *.
    rewrite filter_app, app_length. subst t. f_equal. destruct v; reflexivity.
  - rewrite Hr, HP, firstn_exact; auto.
Qed.
Lemma find_up_spec n i m d :
  i + n <= length m ->
  exists r, find_up n i m d = Ok r /\
    ((i <= r < i + n /\ nth_error m r = Some true /\ forall j, i <= j < r -> nth_error m j = Some false) \/
     (r = d /\ forall j, i <= j < i + n -> nth_error m j = Some false)).
Proof.
  revert i; induction n as [|n IH]; intros i HL; simpl.
  - exists d. split; auto. right. split; auto. intros; lia.
  - destruct (get_lt_ok m i ltac:(lia)) as [v Hv]. rewrite Hv. simpl. apply nth_get in Hv. destruct v.
    + exists i. split; auto. left. repeat split; auto; lia.
    + destruct (IH (S i) ltac:(lia)) as (r & Hr & HP). exists r. split; auto.
      destruct HP as [(H1 & H2 & H3)|(H1 & H2)]; [left|right]; repeat split; auto; try lia;
        intros j Hj; (destruct (Nat.eq_dec j i) as [->|]; [auto|]); auto; try (apply H3; lia); try (apply H2; lia).
Qed.
Lemma reduce_min_index_spec N m : length m = N ->
  (forall i, first_true m i -> reduce_min_index N m = Ok i) /\
  ((forall i, i < N -> nth_error m i = Some false) -> reduce_min_index N m = Ok N).
Proof.
  intros HL. unfold reduce_min_index. destruct (find_up_spec N 0 m N ltac:(lia)) as (r & Hr & HP).
  rewrite Hr. split.
  - intros i (H1 & H2). f_equal. destruct HP as [(K1 & K2 & K3)|(K1 & K2)].
    + destruct (Nat.lt_trichotomy r i) as [L|[L|L]]; auto.
      * rewrite H2 in K2 by auto; discriminate.
      * rewrite K3 in H1 by lia; discriminate.
    + assert (i < length m) by (apply nth_error_Some; congruence).
      rewrite K2 in H1 by lia; discriminate.
  - intros H. f_equal. destruct HP as [(K1 & K2 & K3)|(K1 & K2)]; auto.
    rewrite H in K2 by lia; discriminate.
Qed.
Lemma find_down_spec n m d :
  n <= length m ->
  exists r, find_down n m d = Ok r /\
    ((r < n /\ nth_error m r = Some true /\ forall j, r < j < n -> nth_error m j = Some false) \/
     (r = d /\ forall j, j < n -> nth_error m j = Some false)).
Proof.
  induction n as [|n IH]; intros HL; simpl.
  - exists d. split; auto. right. split; auto. intros; lia.
  - destruct (get_lt_ok m n ltac:(lia)) as [v Hv]. rewrite Hv. simpl. apply nth_get in Hv. destruct v.
    + exists n. split; auto. left. repeat split; auto; lia.
    + destruct (IH ltac:(lia)) as (r & Hr & HP). exists r. split; auto.
      destruct HP as [(H1 & H2 & H3)|(H1 & H2)]; [left|right]; repeat split; auto; try lia;
        intros j Hj; (destruct (Nat.eq_dec j n) as [->|]; [auto|]); auto; try (apply H3; lia); try (apply H2; lia).
Qed.
Lemma reduce_max_index_spec N m : length m = N ->
  (forall i, last_true m i -> reduce_max_index N m = Ok i) /\
  ((forall i, i < N -> nth_error m i = Some false) -> reduce_max_index N m = Ok N).
Proof.
  intros HL. unfold reduce_max_index. destruct (find_down_spec N m N ltac:(lia)) as (r & Hr & HP).
  rewrite Hr. split.
  - intros i (H1 & H2). assert (i < length m) by (apply nth_error_Some; congruence).
    f_equal. destruct HP as [(K1 & K2 & K3)|(K1 & K2)].
    + destruct (Nat.lt_trichotomy r i) as [L|[L|L]]; auto.
      * rewrite K3 in H1 by lia; discriminate.
      * rewrite H2 in K2 by lia; discriminate.
    + rewrite K2 in H1 by lia; discriminate.
  - intros H. f_equal. destruct HP as [(K1 & K2 & K3)|(K1 & K2)]; auto.
    rewrite H in K2 by lia; discriminate.
Qed.

(** ** C05 *)
Lemma copy_to_ok_iff {A B} (conv : A -> res B) N d mem p mem' :
  p + N <= length mem -> N <= length d ->
  (copy_to conv N d mem p = Ok mem' <->
   same_outside p N mem mem' /\ forall i, i < N -> (x <- get d i;; conv x) = get mem' (p + i)).
Proof.
  intros HM HD. unfold copy_to. revert mem'. induction N as [|N IH]; intros mem'.
  - unfold for_up; simpl. split.
    + intros H; inversion H; subst. split; [split; auto|lia].
    + intros ((HL & Ho) & _). f_equal. symmetry. apply list_get_ext; auto.
      intros i Hi. unfold get. rewrite Ho by lia. reflexivity.
  - replace (S N) with (N + 1) by lia. rewrite for_up_snoc, bind_ok.
    specialize (IH ltac:(lia) ltac:(lia)). split.
    + intros (t & Ht & Hs). apply IH in Ht. destruct Ht as ((H1 & H2) & H3).
      apply bind_ok in Hs. destruct Hs as (v & Hv & Hs).
      apply set_ok_iff in Hs. destruct Hs as (K1 & K2 & K3 & K4).
      assert (K4' : forall j, j <> p + N -> nth_error mem' j = nth_error t j).
      { intros j Hj. specialize (K4 j Hj). unfold get in K4.
        destruct (nth_error mem' j), (nth_error t j); congruence. }
      split; [split; [lia|]|].
      * intros j Hj. rewrite K4' by lia. apply H2; lia.
      * intros i Hi. destruct (Nat.eq_dec i N) as [->|Hne].
        -- rewrite Hv, K3; auto.
        -- rewrite K4 by lia. apply H3; lia.
    + intros ((H1 & H2) & H3).
      destruct (get_lt_ok mem' (p + N) ltac:(lia)) as [v Hv].
      destruct (get_lt_ok mem (p + N) ltac:(lia)) as [v0 Hv0].
      destruct (set_lt_ok mem' (p + N) v0 ltac:(lia)) as [t Ht].
      apply set_ok_iff in Ht. destruct Ht as (K1 & K2 & K3 & K4).
      assert (K4' : forall j, j <> p + N -> nth_error t j = nth_error mem' j).
      { intros j Hj. specialize (K4 j Hj). unfold get in K4.
        destruct (nth_error mem' j), (nth_error t j); congruence. }
      exists t. split.
      * apply IH. split; [split; [lia|]|].
        -- intros j Hj. destruct (Nat.eq_dec j (p + N)) as [->|Hne].
           ++ apply nth_get in K3, Hv0. congruence.
           ++ rewrite K4' by lia. apply H2; lia.
        -- intros i Hi. rewrite K4 by lia. apply H3; lia.
      * rewrite H3, Hv by lia. simpl. apply set_ok_iff. repeat split; auto; try lia.
        intros j Hj. symmetry; apply K4; auto.
Qed.
Lemma copy_to_buffer {A} (zero : A) N x : length x = N -> copy_to Ok N x (repeat zero N) 0 = Ok x.
Proof.
  intros HL. apply copy_to_ok_iff; rewrite ?repeat_length; try lia. split.
  - split; [rewrite repeat_length; auto|]. intros j [Hj|Hj]; [lia|].
    rewrite !(proj2 (nth_error_None _ _)); rewrite ?repeat_length; auto; lia.
  - intros i Hi. simpl. rewrite bind_ret. auto.
Qed.

Lemma gsum_app {A} (op : A -> A -> res A) l1 l2 x y z :
  gsum op l1 x -> gsum op l2 y -> op x y = Ok z -> gsum op (l1 ++ l2) z.
Proof. intros. eapply gsum_split; eauto. Qed.

(** For every operation, reductions of at most three elements are right. *)
Lemma reduce_small {A} (zero : A) op (x : list A) v :
  1 <= length x <= 3 -> reduce zero (length x) op x = Ok v -> gsum op x v.
Proof.
  intros HL H. unfold reduce in H. rewrite copy_to_buffer in H by auto. simpl in H.
  destruct x as [|a [|b [|c [|d x]]]]; simpl in HL; try lia.
  - cbn in H. inversion H; subst. constructor.
  - cbn in H. eapply (gsum_app op [a] [b]); [constructor|constructor|exact H].
  - unfold reduce_arr in H. cbn in H. apply bind_ok in H. destruct H as (y & Hy & H).
    eapply (gsum_app op [a] [b; c]); [constructor| |eauto].
    eapply (gsum_app op [b] [c]); [constructor|constructor|exact Hy].
Qed.
(** ... and such a reduction is undefined only if the operation itself is at some pair of combined values. *)
Lemma reduce_small_defined {A} (zero : A) op (x : list A) :
  1 <= length x <= 3 -> (forall a b, exists c, op a b = Ok c) -> exists v, reduce zero (length x) op x = Ok v.
Proof.
  intros HL Hop. unfold reduce. rewrite copy_to_buffer by auto. simpl.
  destruct x as [|a [|b [|c [|d x]]]]; simpl in HL; try lia.
  - cbn. eauto.
  - cbn. apply Hop.
  - unfold reduce_arr. cbn. destruct (Hop b c) as [y Hy]. rewrite Hy. simpl. apply Hop.
Qed.

(** What [gsum] means for addition of w-bit words: the sum modulo 2^w. *)
Open Scope Z_scope.
Lemma gsum_wrap_add w l v : 0 <= w ->
  gsum (fun a b => Ok (wrap w (a + b))) l v -> wrap w v = wrap w (fold_right Z.add 0 l).
Proof.
  intros Hw H. remember (fun a b => Ok (wrap w (a + b))) as op eqn:E. induction H; subst.
  - simpl. f_equal; lia.
  - inversion H2; subst. assert (EQ : fold_right Z.add 0 l = fold_right Z.add 0 l1 + fold_right Z.add 0 l2).
    { transitivity (fold_right Z.add 0 (l1 ++ l2)).
      - clear -H. induction H; simpl; lia.
      - clear. induction l1; simpl; lia. }
    rewrite EQ. unfold wrap in *. rewrite Zmod_mod. rewrite Z.add_mod, IHgsum1, IHgsum2, <- Z.add_mod; auto;
    pose proof (pow2_pos w); lia.
Qed.
Close Scope Z_scope.

(** ** C06 *)
Lemma is_sequential_spec i l : is_sequential i l = true -> l = seq i (length l).
Proof.
  revert i; induction l as [|x l IH]; intros i H; auto.
  destruct l as [|y l].
  - simpl in *. f_equal. lia.
  - change (is_sequential i (x :: y :: l)) with ((x =? i) && is_sequential (i + 1) (y :: l)) in H.
    apply andb_true_iff in H. destruct H as [H1 H2]. apply IH in H2.
    change (seq i (length (x :: y :: l))) with (i :: seq (S i) (length (y :: l))).
    replace (S i) with (i + 1) by lia. rewrite <- H2. f_equal. lia.
Qed.
Lemma broadcast_fill {A} N (v : A) d : broadcast N v d = fill N (fun _ => Ok v) d.
Proof. reflexivity. Qed.
Lemma broadcast_spec {A} N (v : A) d : length d = N -> broadcast N v d = Ok (repeat v N).
Proof.
  intros HL. rewrite broadcast_fill. apply fill_ok_iff; [lia|]. rewrite repeat_length. repeat split; auto.
  - intros i Hi. rewrite get_repeat; auto.
  - intros i Hi. rewrite !(proj2 (get_ub _ _)); rewrite ?repeat_length; auto; lia.
Qed.
Lemma shuffle_impl_spec {A} (l : list nat) : forall J (from to : list A),
  (forall i, In i l -> i < length from) -> J + length l <= length to ->
  exists r, shuffle_impl J l from to = Ok r /\ length r = length to /\
    (forall j, j < J \/ J + length l <= j -> get r j = get to j) /\
    (forall j i, get l j = Ok i -> get r (J + j) = get from i).
Proof.
  induction l as [|i l IH]; intros J from to Hin HL; simpl.
  - exists to. repeat split; auto. intros j i Hj. apply get_ok_lt in Hj. simpl in Hj; lia.
  - simpl in HL. destruct (IH (J + 1) from to) as (r & Hr & H1 & H2 & H3); [firstorder|lia|].
    rewrite Hr. simpl. destruct (get_lt_ok from i) as [v Hv]; [apply Hin; left; auto|]. rewrite Hv. simpl.
    destruct (set_lt_ok r J v ltac:(lia)) as [t Ht]. exists t. split; auto.
    apply set_ok_iff in Ht. destruct Ht as (K1 & K2 & K3 & K4). repeat split; try lia.
    + intros j Hj. rewrite K4 by lia. apply H2; lia.
    + intros [|j] i' Hj.
      * change (get (i :: l) 0) with (Ok i) in Hj. inversion Hj; subst. rewrite Nat.add_0_r. congruence.
      * rewrite get_cons_S in Hj. rewrite K4 by lia. rewrite <- (H3 j i' Hj). f_equal; lia.
Qed.
Lemma shuffle_spec {A} (zero : A) N is (x : list A) :
  length x = N -> is <> [] -> (forall i, In i is -> i < N) ->
  exists r, shuffle zero N is x = Ok r /\ length r = length is /\
    forall j i, nth_error is j = Some i -> nth_error r j = nth_error x i.
Proof.
  intros HL Hne Hin. destruct is as [|i0 is]; [congruence|]. unfold shuffle.
  destruct (is_sequential 0 (i0 :: is) && (length (i0 :: is) =? N)) eqn:E1.
  - apply andb_true_iff in E1. destruct E1 as [E1 E2]. apply is_sequential_spec in E1.
    exists x. repeat split; [lia|]. intros j i Hj.
    rewrite E1 in Hj. apply nth_get in Hj.
    pose proof (get_ok_lt _ _ _ Hj) as Hlt. rewrite seq_length in Hlt.
    rewrite get_seq in Hj by auto. inversion Hj; subst. f_equal; lia.
  - destruct (forallb (fun j => j =? i0) is) eqn:E2.
    + destruct (get_lt_ok x i0) as [v Hv]; [rewrite HL; apply Hin; left; auto|]. rewrite Hv. simpl.
      rewrite broadcast_spec by (cbn [length]; rewrite ?repeat_length; simpl; rewrite ?repeat_length; auto). eexists; split; eauto.
      rewrite repeat_length. split; auto. intros j i Hj.
      assert (i = i0).
      { destruct j as [|j]; [simpl in Hj; congruence|]. simpl in Hj. apply nth_error_In in Hj.
        rewrite forallb_forall in E2. specialize (E2 _ Hj). lia. }
      subst i. apply nth_get in Hv. rewrite Hv. apply nth_error_repeat.
      assert (j < length (i0 :: is)) by (apply nth_error_Some; congruence). simpl in *; lia.
    + destruct (shuffle_impl_spec (i0 :: is) 0 x (repeat zero (length (i0 :: is)))) as (r & Hr & H1 & H2 & H3).
      * intros i Hi. rewrite HL. auto.
      * rewrite repeat_length; lia.
      * exists r. rewrite repeat_length in H1. repeat split; auto. intros j i Hj.
        apply nth_get in Hj. specialize (H3 j i Hj). simpl in H3. unfold get in H3.
        destruct (nth_error r j), (nth_error x i); congruence.
Qed.

(** ** C07 *)
Lemma blend_spec {A} (zero : A) N m (a b : list A) :
  length m = N -> length a = N -> length b = N ->
  exists r, blend zero N m a b = Ok r /\ length r = N /\
    forall i, i < N -> (nth_error m i = Some true -> nth_error r i = nth_error a i) /\
                       (nth_error m i = Some false -> nth_error r i = nth_error b i).
Proof.
  intros Hm Ha Hb. unfold blend.
  destruct (from_result zero N _) as [r|] eqn:E.
  - apply from_result_ok in E. destruct E as (H1 & H2). exists r. repeat split; auto;
      intros Hc; apply nth_get in Hc; specialize (H2 i ltac:(auto)); rewrite Hc in H2; simpl in H2;
      unfold get in H2;
      [destruct (nth_error a i) eqn:E1 | destruct (nth_error b i) eqn:E1]; destruct (nth_error r i) eqn:E2; congruence.
  - apply from_result_ub in E. destruct E as (i & Hi & H).
    destruct (get_lt_ok m i ltac:(lia)) as [c Hc]. rewrite Hc in H. simpl in H.
    destruct c; apply get_ub in H; lia.
Qed.

(** ** C08 *)
Lemma copy_from_ok_iff {A B} (conv : A -> res B) N mem p d d' :
  length d = N ->
  (copy_from conv N mem p d = Ok d' <->
   length d' = N /\ forall i, i < N -> (x <- get mem (p + i);; conv x) = get d' i).
Proof.
  intros HL. rewrite copy_from_fill, fill_ok_iff by lia. split.
  - intros (H1 & H2 & _). split; auto; lia.
  - intros (H1 & H2). repeat split; auto; try lia. intros i Hi.
    rewrite !(proj2 (get_ub _ _)); auto; lia.
Qed.
Lemma copy_from_id {A} N (mem : list A) p d :
  length d = N -> p + N <= length mem -> copy_from Ok N mem p d = Ok (firstn N (skipn p mem)).
Proof.
  intros HL HM. apply copy_from_ok_iff; auto. split.
  - rewrite firstn_length, skipn_length. lia.
  - intros i Hi. rewrite get_firstn, get_skipn, bind_ret by auto. reflexivity.
Qed.
Lemma copy_from_oob {A B} (conv : A -> res B) N (mem : list A) p d :
  0 < N -> length mem < p + N -> length d = N -> copy_from conv N mem p d = UB.
Proof.
  intros HN HM HL. rewrite copy_from_fill. apply fill_ub_iff; [lia|].
  exists (N - 1). split; [lia|]. rewrite (proj2 (get_ub mem (p + (N - 1)))); auto; lia.
Qed.
Lemma copy_to_spec {A} N (d : list A) mem p :
  length d = N -> p + N <= length mem ->
  exists mem', copy_to Ok N d mem p = Ok mem' /\ same_outside p N mem mem' /\
    forall i, i < N -> nth_error mem' (p + i) = nth_error d i.
Proof.
  intros HL HM.
  set (mem' := firstn p mem ++ d ++ skipn (p + N) mem).
  assert (HA : length (firstn p mem) = p) by (rewrite firstn_length; lia).
  assert (G : forall i, i < N -> nth_error mem' (p + i) = nth_error d i).
  { intros i Hi. unfold mem'. rewrite nth_error_app2 by lia. rewrite nth_error_app1 by lia. f_equal; lia. }
  exists mem'. split; [|split].
  - apply copy_to_ok_iff; auto; try lia. split.
    + split.
      * unfold mem'. rewrite !app_length, HA, skipn_length. lia.
      * intros j [Hj|Hj].
        -- unfold mem'. rewrite nth_error_app1 by lia.
           pose proof (get_firstn mem p j Hj) as K. unfold get in K.
           destruct (nth_error (firstn p mem) j), (nth_error mem j); congruence.
        -- unfold mem'. rewrite nth_error_app2, HA by lia. rewrite nth_error_app2 by lia.
           pose proof (get_skipn mem (p + N) (j - p - length d)) as K. unfold get in K.
           replace (p + N + (j - p - length d)) with j in K by lia.
           destruct (nth_error (skipn (p + N) mem) _), (nth_error mem j); congruence.
    + intros i Hi. rewrite bind_ret. unfold get. rewrite G by auto. reflexivity.
  - split.
    + unfold mem'. rewrite !app_length, HA, skipn_length. lia.
    + intros j [Hj|Hj].
      * unfold mem'. rewrite nth_error_app1 by lia.
        pose proof (get_firstn mem p j Hj) as K. unfold get in K.
        destruct (nth_error (firstn p mem) j), (nth_error mem j); congruence.
      * unfold mem'. rewrite nth_error_app2, HA by lia. rewrite nth_error_app2 by lia.
        pose proof (get_skipn mem (p + N) (j - p - length d)) as K. unfold get in K.
        replace (p + N + (j - p - length d)) with j in K by lia.
        destruct (nth_error (skipn (p + N) mem) _), (nth_error mem j); congruence.
  - exact G.
Qed.
Lemma copy_to_from {A} N (d : list A) mem p d0 :
  length d = N -> length d0 = N -> p + N <= length mem ->
  (mem' <- copy_to Ok N d mem p;; copy_from Ok N mem' p d0) = Ok d.
Proof.
  intros HL HL0 HM. destruct (copy_to_spec N d mem p HL HM) as (mem' & H & (H1 & H2) & H3).
  rewrite H. simpl. apply copy_from_ok_iff; auto. split; auto. intros i Hi. rewrite bind_ret.
  unfold get. rewrite H3; auto.
Qed.
(** masked load: unselected positions of the memory are not even read *)
Lemma copy_from_mask_spec {A} N (mem : list A) p m d :
  length m = N -> length d = N ->
  (forall i, i < N -> nth_error m i = Some true -> p + i < length mem) ->
  exists d', copy_from_mask Ok N mem p m d = Ok d' /\ length d' = N /\
    forall i, i < N -> (nth_error m i = Some true -> nth_error d' i = nth_error mem (p + i)) /\
                       (nth_error m i = Some false -> nth_error d' i = nth_error d i).
Proof.
  intros Hm Hd Hsel. unfold copy_from_mask.
  edestruct (for_up_inv (fun k t => length t = N /\
     (forall i, i < k -> (nth_error m i = Some true -> nth_error t i = nth_error mem (p + i)) /\
                       (nth_error m i = Some false -> nth_error t i = nth_error d i)) /\
     (forall i, k <= i -> nth_error t i = nth_error d i)) 0 N
     (fun i d => c <- get m i;;
       if c then v <- (x <- get mem (p + i);; Ok x);; set d i v else Ok d) d) as (s & Hs & H1 & H2 & H3); try lia.
  - repeat split; auto; lia.
  - intros j t Hj (K1 & K2 & K3). cbn beta.
    destruct (get_lt_ok m j ltac:(lia)) as [c Hc]. rewrite Hc. simpl. apply nth_get in Hc. destruct c.
    + destruct (get_lt_ok mem (p + j)) as [v Hv]; [apply Hsel; auto; lia|]. rewrite Hv. simpl.
      destruct (set_lt_ok t j v ltac:(lia)) as [t' Ht']. exists t'. split; auto.
      apply set_ok_iff in Ht'. destruct Ht' as (L1 & L2 & L3 & L4).
      assert (L4' : forall i, i <> j -> nth_error t' i = nth_error t i).
      { intros i Hi. specialize (L4 i Hi). unfold get in L4. destruct (nth_error t' i), (nth_error t i); congruence. }
      split; [lia|split].
      * intros i Hi. destruct (Nat.eq_dec i j) as [->|Hne].
        -- apply nth_get in L3, Hv. split; intros E; congruence.
        -- rewrite L4' by auto. apply K2; lia.
      * intros i Hi. rewrite L4' by lia. apply K3; lia.
    + exists t. split; auto. split; [lia|split].
      * intros i Hi. destruct (Nat.eq_dec i j) as [->|Hne].
        -- split; intros E; [congruence|]. apply K3; lia.
        -- apply K2; lia.
      * intros i Hi. apply K3; lia.
  - exists s. auto.
Qed.
Lemma copy_to_mask_spec {A} N (d : list A) mem p m :
  length m = N -> length d = N ->
  (forall i, i < N -> nth_error m i = Some true -> p + i < length mem) ->
  exists mem', copy_to_mask Ok N d mem p m = Ok mem' /\ same_outside p N mem mem' /\
    forall i, i < N -> (nth_error m i = Some true -> nth_error mem' (p + i) = nth_error d i) /\
                       (nth_error m i = Some false -> nth_error mem' (p + i) = nth_error mem (p + i)).
Proof.
  intros Hm Hd Hsel. unfold copy_to_mask.
  edestruct (for_up_inv (fun k t => length t = length mem /\
     (forall i, i < k -> (nth_error m i = Some true -> nth_error t (p + i) = nth_error d i) /\
                       (nth_error m i = Some false -> nth_error t (p + i) = nth_error mem (p + i))) /\
     (forall j, j < p \/ p + k <= j -> nth_error t j = nth_error mem j)) 0 N
     (fun i mm => c <- get m i;;
       if c then v <- (x <- get d i;; Ok x);; set mm (p + i) v else Ok mm) mem) as (s & Hs & H1 & H2 & H3); try lia.
  - repeat split; auto; lia.
  - intros j t Hj (K1 & K2 & K3). cbn beta.
    destruct (get_lt_ok m j ltac:(lia)) as [c Hc]. rewrite Hc. simpl. apply nth_get in Hc. destruct c.
    + destruct (get_lt_ok d j ltac:(lia)) as [v Hv]. rewrite Hv. simpl.
      destruct (set_lt_ok t (p + j) v) as [t' Ht']; [rewrite K1; apply Hsel; auto; lia|]. exists t'. split; auto.
      apply set_ok_iff in Ht'. destruct Ht' as (L1 & L2 & L3 & L4).
      assert (L4' : forall i, i <> p + j -> nth_error t' i = nth_error t i).
      { intros i Hi. specialize (L4 i Hi). unfold get in L4. destruct (nth_error t' i), (nth_error t i); congruence. }
      split; [lia|split].
      * intros i Hi. destruct (Nat.eq_dec i j) as [->|Hne].
        -- apply nth_get in L3, Hv. split; intros E; congruence.
        -- rewrite L4' by lia. apply K2; lia.
      * intros i Hi. rewrite L4' by lia. apply K3; lia.
    + exists t. split; auto. split; [lia|split].
      * intros i Hi. destruct (Nat.eq_dec i j) as [->|Hne].
        -- split; intros E; [congruence|]. apply K3; lia.
        -- apply K2; lia.
      * intros i Hi. apply K3; lia.
  - exists s. split; auto. split; auto. split; auto.
Qed.

(** ** C09 *)
Lemma generate_n_spec {A S} (gen : nat -> S -> res (A * S)) n : forall I d s,
  length d = I + n ->
  generate_n n I gen d s = (' (vs, s') <- call_gen n I gen s;; Ok (firstn I d ++ vs, s')).
Proof.
  induction n as [|n IH]; intros I d s HL; simpl.
  - rewrite app_nil_r, firstn_all2 by lia. reflexivity.
  - destruct (gen I s) as [[v s']|] eqn:E; simpl; auto.
    destruct (set_lt_ok d I v ltac:(lia)) as [d' Hd]. rewrite Hd. simpl.
    apply set_ok_iff in Hd. destruct Hd as (K1 & K2 & K3 & K4).
    rewrite IH by lia. destruct (call_gen n (Datatypes.S I) gen s') as [[vs s'']|]; cbn [bind]; auto.
    do 2 f_equal. replace (Datatypes.S I) with (I + 1) by lia. rewrite (firstn_snoc _ _ _ K3), <- app_assoc. simpl.
    f_equal. apply list_get_ext.
    + rewrite !firstn_length; lia.
    + intros i Hi. rewrite firstn_length in Hi. rewrite !get_firstn by lia. apply K4; lia.
Qed.
Lemma generate_spec {A S} N (gen : nat -> S -> res (A * S)) d s :
  length d = N -> generate N gen d s = call_gen N 0 gen s.
Proof.
  intros HL. unfold generate. rewrite generate_n_spec by auto. simpl.
  destruct (call_gen N 0 gen s) as [[vs s']|]; reflexivity.
Qed.
Lemma generate_pure {A} N (g : nat -> A) d (s : unit) :
  length d = N -> exists r, generate N (fun i s => Ok (g i, s)) d s = Ok (r, s) /\ length r = N /\
    forall i, i < N -> nth_error r i = Some (g i).
Proof.
  intros HL. rewrite generate_spec by auto.
  assert (G : forall n I, exists r, call_gen n I (fun i s => Ok (g i, s)) s = Ok (r, s) /\ length r = n /\
     forall i, i < n -> nth_error r i = Some (g (I + i))).
  { induction n as [|n IH]; intros I; simpl.
    - exists []. repeat split; auto; lia.
    - destruct (IH (S I)) as (r & Hr & H1 & H2). rewrite Hr. simpl. eexists; repeat split; simpl; auto.
      intros [|i] Hi; simpl; [rewrite Nat.add_0_r; auto|]. rewrite H2 by lia. do 2 f_equal; lia. }
  destruct (G N 0) as (r & Hr & H1 & H2). exists r. repeat split; auto.
Qed.

(** ** C10 *)
Lemma copy_cast_elementwise {A B} (conv : A -> res B) zero N from to :
  length from = N -> length to = N ->
  elementwise1 N conv from (copy_cast conv zero N from to).
Proof.
  intros HF HT. unfold copy_cast.
  assert (D : (exists r, copy_to conv N from (repeat zero N) 0 = Ok r) \/ exists i x, i < N /\ nth_error from i = Some x /\ conv x = UB).
  { assert (G : forall k, k <= N -> (exists r, for_up 0 k (fun i m => v <- (x <- get from i;; conv x);; set m (0 + i) v) (repeat zero N) = Ok r /\ length r = N) \/ exists i x, i < N /\ nth_error from i = Some x /\ conv x = UB).
    { induction k as [|k IH]; intros Hk.
      - left. unfold for_up; simpl. eexists; split; eauto. apply repeat_length.
      - destruct (IH ltac:(lia)) as [(r & Hr & HL)|HU]; auto.
        destruct (get_lt_ok from k ltac:(lia)) as [x Hx].
        destruct (conv x) as [y|] eqn:Ec.
        + left. destruct (set_lt_ok r k y ltac:(lia)) as [r' Hr']. exists r'. replace (S k) with (k + 1) by lia.
          rewrite for_up_snoc, Hr. simpl. rewrite Hx. simpl. rewrite Ec. simpl. split; auto. apply set_length in Hr'; lia.
        + right. exists k, x. repeat split; auto. apply nth_get; auto. }
    destruct (G N ltac:(lia)) as [(r & Hr & _)|HU]; [left; exists r; auto|right; auto]. }
  destruct D as [[r Hr]|(i & x & Hi & Hx & Hc)].
  - rewrite Hr. simpl. apply copy_to_ok_iff in Hr; rewrite ?repeat_length; try lia.
    destruct Hr as ((H1 & _) & H2). rewrite repeat_length in H1.
    rewrite copy_from_id by lia. simpl. rewrite firstn_exact by auto. split; auto.
    intros i x Hi Hx. apply nth_get in Hx. specialize (H2 i Hi). rewrite Hx in H2. simpl in H2.
    destruct (get_lt_ok r i ltac:(lia)) as [y Hy]. exists y. split; [congruence|]. apply nth_get; auto.
  - destruct (copy_to conv N from (repeat zero N) 0) as [r|] eqn:Hr; simpl.
    + apply copy_to_ok_iff in Hr; rewrite ?repeat_length; try lia. destruct Hr as ((H1 & _) & H2).
      rewrite repeat_length in H1.
      specialize (H2 i Hi). apply nth_get in Hx. rewrite Hx in H2; simpl in H2. rewrite Hc in H2.
      symmetry in H2; apply get_ub in H2. lia.
    + exists i, x. auto.
Qed.
Lemma simd_cast_elementwise {A B} (conv : A -> res B) zero N x :
  length x = N -> elementwise1 N conv x (simd_cast conv zero N x).
Proof. intros. apply copy_cast_elementwise; auto. apply repeat_length. Qed.
Lemma convert_elementwise {A B} (conv : A -> res B) zero N x :
  length x = N -> elementwise1 N conv x (convert conv zero N x).
Proof.
  intros HL. unfold convert. rewrite copy_from_fill. simpl.
  destruct (fill N _ _) as [r|] eqn:E; simpl.
  - apply fill_ok_iff in E; [|rewrite repeat_length; auto]. rewrite repeat_length in E. destruct E as (H1 & H2 & _).
    split; auto. intros i v Hi Hx. apply nth_get in Hx. specialize (H2 i Hi). rewrite Hx in H2; simpl in H2.
    destruct (get_lt_ok r i ltac:(lia)) as [y Hy]. exists y. split; [congruence|]. apply nth_get; auto.
  - apply fill_ub_iff in E; [|rewrite repeat_length; auto]. destruct E as (i & Hi & Hf).
    destruct (get_lt_ok x i ltac:(lia)) as [v Hv]. rewrite Hv in Hf; simpl in Hf. exists i, v.
    repeat split; auto. apply nth_get; auto.
Qed.
Open Scope Z_scope.
Lemma cxx_cast_value t u x : ity_ok t -> ity_ok u -> word (iw t) x ->
  imin u <= ival t x <= imax u -> ival u (cxx_cast t u x) = ival t x.
Proof. intros. unfold cxx_cast. apply ival_of_val; auto. Qed.
Lemma cxx_cast_roundtrip t u x : ity_ok t -> ity_ok u -> iw t <= iw u -> word (iw t) x ->
  cxx_cast u t (cxx_cast t u x) = x.
Proof.
  intros Ht Hu Hw Hx. unfold cxx_cast, of_val.
  pose proof (ity_pos t Ht). pose proof (ity_pos u Hu).
  assert (E : wrap (iw t) (ival u (wrap (iw u) (ival t x))) = wrap (iw t) (wrap (iw u) (ival t x))).
  { unfold ival at 1. destruct (isg u); auto.
    destruct (sgn_mod (iw u) (wrap (iw u) (ival t x)) ltac:(lia)) as [k Hk]. rewrite Hk.
    unfold wrap at 1 3. replace (iw u) with (iw t + (iw u - iw t)) at 2 by lia.
    rewrite Z.pow_add_r by lia.
    replace (k * (2 ^ iw t * 2 ^ (iw u - iw t))) with ((k * 2 ^ (iw u - iw t)) * 2 ^ iw t) by ring.
    rewrite Z.mod_add; auto. pose proof (pow2_pos (iw t)); lia. }
  rewrite E, wrap_wrap_le by lia. apply (of_val_ival t x); auto.
Qed.
Close Scope Z_scope.
Lemma nth_ext_list {A} (l l' : list A) : length l = length l' -> (forall i, i < length l -> nth_error l i = nth_error l' i) -> l = l'.
Proof.
  intros HL H. apply list_get_ext; auto. intros i Hi. unfold get. rewrite H; auto.
Qed.
Lemma simd_cast_roundtrip t u N x :
  ity_ok t -> ity_ok u -> (iw t <= iw u)%Z -> length x = N -> Forall (word (iw t)) x ->
  (y <- simd_cast (fun v => Ok (cxx_cast t u v)) 0%Z N x;;
   simd_cast (fun v => Ok (cxx_cast u t v)) 0%Z N y) = Ok x.
Proof.
  intros Ht Hu Hw HL HF.
  pose proof (simd_cast_elementwise (fun v => Ok (cxx_cast t u v)) 0%Z N x HL) as H1.
  destruct (simd_cast (fun v => Ok (cxx_cast t u v)) 0%Z N x) as [y|]; simpl in *.
  2:{ destruct H1 as (i & v & _ & _ & E); discriminate. }
  destruct H1 as (HLy & H1).
  pose proof (simd_cast_elementwise (fun v => Ok (cxx_cast u t v)) 0%Z N y HLy) as H2.
  destruct (simd_cast (fun v => Ok (cxx_cast u t v)) 0%Z N y) as [z|]; simpl in *.
  2:{ destruct H2 as (i & v & _ & _ & E); discriminate. }
  destruct H2 as (HLz & H2). f_equal. apply nth_ext_list; [lia|]. intros i Hi.
  destruct (nth_error x i) as [v|] eqn:Ev; [|apply nth_error_None in Ev; lia].
  destruct (H1 i v ltac:(lia) Ev) as (v1 & E1 & Hv1). inversion E1; subst v1; clear E1.
  destruct (H2 i _ ltac:(lia) Hv1) as (v2 & E2 & Hv2). inversion E2; subst v2; clear E2.
  rewrite Hv2. f_equal. apply cxx_cast_roundtrip; auto.
  rewrite Forall_forall in HF. apply HF. eapply nth_error_In; eauto.
Qed.

(** ** C11 *)
Lemma simd_min_elementwise T N a b : length a = N -> length b = N ->
  elementwise2 N (fun x y => Ok (std_min T x y)) a b (simd_min T N a b).
Proof. intros. apply (from_result_elementwise2 _ N (fun x y => Ok (std_min T x y))); auto. Qed.
Lemma simd_max_elementwise T N a b : length a = N -> length b = N ->
  elementwise2 N (fun x y => Ok (std_max T x y)) a b (simd_max T N a b).
Proof. intros. apply (from_result_elementwise2 _ N (fun x y => Ok (std_max T x y))); auto. Qed.
Lemma simd_min_s_elementwise T N a b : length a = N ->
  elementwise1 N (fun x => Ok (std_min T x b)) a (simd_min_s T N a b).
Proof. intros. apply (from_result_elementwise1 _ N (fun x => Ok (std_min T x b))); auto. Qed.
Lemma simd_max_s_elementwise T N a b : length a = N ->
  elementwise1 N (fun x => Ok (std_max T x b)) a (simd_max_s T N a b).
Proof. intros. apply (from_result_elementwise1 _ N (fun x => Ok (std_max T x b))); auto. Qed.
Lemma simd_clamp_elementwise T N x lo hi : length x = N -> length lo = N -> length hi = N ->
  elementwise3 N (std_clamp T) x lo hi (simd_clamp T N x lo hi).
Proof. intros. apply (from_result_elementwise3 _ N (std_clamp T)); auto. Qed.
Lemma simd_clamp_s_elementwise T N x lo hi : length x = N ->
  elementwise1 N (fun v => std_clamp T v lo hi) x (simd_clamp_s T N x lo hi).
Proof. intros. apply (from_result_elementwise1 _ N (fun v => std_clamp T v lo hi)); auto. Qed.
Open Scope Z_scope.
Lemma std_min_value t x y : ival t (std_min (int_scalar t) x y) = Z.min (ival t x) (ival t y).
Proof. unfold std_min. simpl. unfold cxx_cmp, cmp_val. destruct (Z.ltb_spec (ival t y) (ival t x)); lia. Qed.
Lemma std_max_value t x y : ival t (std_max (int_scalar t) x y) = Z.max (ival t x) (ival t y).
Proof. unfold std_max. simpl. unfold cxx_cmp, cmp_val. destruct (Z.ltb_spec (ival t x) (ival t y)); lia. Qed.
Lemma std_clamp_value t v lo hi : ival t lo <= ival t hi ->
  exists r, std_clamp (int_scalar t) v lo hi = Ok r /\ ival t lo <= ival t r <= ival t hi /\
    (ival t lo <= ival t v <= ival t hi -> r = v).
Proof.
  intros H. unfold std_clamp. simpl. unfold cxx_cmp, cmp_val.
  destruct (Z.ltb_spec (ival t hi) (ival t lo)); [lia|].
  eexists; split; [reflexivity|].
  destruct (Z.ltb_spec (ival t v) (ival t lo)); [lia|]. destruct (Z.ltb_spec (ival t hi) (ival t v)); [lia|].
  split; [lia|auto].
Qed.
Close Scope Z_scope.
Lemma simd_minmax_ub T N a b : 0 < N -> length a = N -> length b = N -> simd_minmax T N a b = UB.
Proof.
  intros HN Ha Hb. unfold simd_minmax, simd_minmax_gen, for_up. rewrite Nat.sub_0_r.
  destruct N as [|N]; [lia|]. destruct a as [|x a]; [discriminate|]. destruct b as [|y b]; [discriminate|].
  simpl. unfold std_minmax. simpl. destruct (sc_cmp T CLt y x); reflexivity.
Qed.

(** ** C12 *)
Open Scope Z_scope.
Lemma promote_word_shl t x n : ity_ok t -> word (iw t) x -> 0 <= n < iw t ->
  cxx_shift t true x n = Ok (shl_bits (iw t) n x).
Proof.
  intros Ht Hx Hn. pose proof (ity_pos t Ht). pose proof (promote_ok t Ht) as Hp. pose proof (ity_pos _ Hp).
  assert (Hle : iw t <= iw (promote t)).
  { unfold promote. destruct (Z.ltb_spec (iw t) 32); simpl; lia. }
  unfold cxx_shift, cxx_shift_val. replace ((0 <=? n) && (n <? iw (promote t))) with true by lia. simpl.
  f_equal. unfold renorm, of_val, shl_bits.
  assert (E : wrap (iw t) (ival (promote t) (wrap (iw (promote t)) (ival t x * 2 ^ n))) = wrap (iw t) (ival t x * 2 ^ n)).
  { rewrite <- (wrap_wrap_le (iw t) (iw (promote t)) (ival t x * 2 ^ n)) by lia.
    unfold ival at 1. destruct (isg (promote t)); auto.
    destruct (sgn_mod (iw (promote t)) (wrap (iw (promote t)) (ival t x * 2 ^ n)) ltac:(lia)) as [k Hk]. rewrite Hk.
    unfold wrap at 1 3. replace (iw (promote t)) with (iw t + (iw (promote t) - iw t)) at 2 by lia.
    rewrite Z.pow_add_r by lia.
    replace (k * (2 ^ iw t * 2 ^ (iw (promote t) - iw t))) with ((k * 2 ^ (iw (promote t) - iw t)) * 2 ^ iw t) by ring.
    rewrite Z.mod_add; auto. pose proof (pow2_pos (iw t)); lia. }
  rewrite E. unfold wrap, ival. destruct (isg t); auto.
  destruct (sgn_mod (iw t) x ltac:(lia)) as [k Hk]. rewrite Hk.
  replace ((x + k * 2 ^ iw t) * 2 ^ n) with (x * 2 ^ n + (k * 2 ^ n) * 2 ^ iw t) by ring.
  apply Z.mod_add. pose proof (pow2_pos (iw t)); lia.
Qed.
Lemma cxx_shift_right t x n : ity_ok t -> word (iw t) x -> 0 <= n < iw t ->
  cxx_shift t false x n = Ok (if isg t then ashr_bits (iw t) n x else lshr_bits n x).
Proof.
  intros Ht Hx Hn. pose proof (ity_pos t Ht).
  assert (Hle : iw t <= iw (promote t)).
  { unfold promote. destruct (Z.ltb_spec (iw t) 32); simpl; lia. }
  unfold cxx_shift, cxx_shift_val. replace ((0 <=? n) && (n <? iw (promote t))) with true by lia. simpl.
  f_equal. unfold of_val, wrap, ival, ashr_bits, lshr_bits. destruct (isg t).
  - rewrite Z.shiftr_div_pow2 by lia. reflexivity.
  - rewrite Z.shiftr_div_pow2 by lia. apply Z.mod_small. unfold word in Hx.
    pose proof (pow2_pos n ltac:(lia)). split; [apply Z.div_pos; lia|].
    apply Z.le_lt_trans with x; [|lia]. apply Z.div_le_upper_bound; nia.
Qed.
Lemma lsr_impl_spec t x n : ity_ok t -> word (iw t) x -> 1 <= n < iw t ->
  lsr_impl t n x = Ok (lshr_bits n x).
Proof.
  intros Ht Hx Hn. pose proof (ity_pos t Ht).
  assert (HU : forall s, lsr_impl_u {| iw := iw t; isg := s |} n x = Ok (lshr_bits n x)).
  { intros s. set (u := {| iw := iw t; isg := s |}). unfold lsr_impl_u.
    assert (Hle : iw t <= iw (promote u)) by (unfold promote; destruct (Z.ltb_spec (iw u) 32); simpl; simpl in *; lia).
    unfold cxx_shift_val. replace ((0 <=? n) && (n <? iw (promote u))) with true by lia.
    cbn -[Z.pow Z.sub Z.shiftr promote].
    assert (E : (Z.shiftr (2 ^ iw t - 1) n =? 2 ^ iw t - 1) = false).
    { rewrite Z.shiftr_div_pow2 by lia. apply Z.eqb_neq.
      pose proof (pow2_pos (iw t) ltac:(lia)). pose proof (Z.pow_le_mono_r 2 1 n ltac:(lia) ltac:(lia)).
      assert (2 ^ 1 <= 2 ^ iw t) by (apply Z.pow_le_mono_r; lia).
      assert ((2 ^ iw t - 1) / 2 ^ n < 2 ^ iw t - 1); [|lia].
      apply Z.div_lt; lia. }
    change (iw u) with (iw t). rewrite E. simpl. f_equal. unfold of_val. simpl.
    unfold wrap, lshr_bits. rewrite Z.shiftr_div_pow2 by lia. apply Z.mod_small. unfold word in Hx.
    pose proof (pow2_pos n ltac:(lia)). split; [apply Z.div_pos; lia|].
    apply Z.le_lt_trans with x; [|lia]. apply Z.div_le_upper_bound; nia. }
  unfold lsr_impl. destruct (isg t) eqn:Es.
  - unfold lsr_impl_s.
    assert (Hle : iw t <= iw (promote t)) by (unfold promote; destruct (Z.ltb_spec (iw t) 32); simpl; lia).
    unfold cxx_shift_val at 1. replace ((0 <=? n) && (n <? iw (promote t))) with true by lia.
    cbn -[Z.shiftr lsr_impl_u cxx_shift_val]. rewrite Z.shiftr_div_pow2 by lia.
    replace (-1 / 2 ^ n) with (-1).
    2:{ pose proof (pow2_pos n ltac:(lia)). apply Z.div_unique with (2 ^ n - 1); lia. }
    simpl. apply HU.
  - specialize (HU false). destruct t as [w s]; simpl in *. subst s. exact HU.
Qed.
Lemma asr_impl_spec t x n : ity_ok t -> isg t = true -> word (iw t) x -> 0 <= n < iw t ->
  asr_impl t n x = Ok (ashr_bits (iw t) n x).
Proof.
  intros Ht Hs Hx Hn. pose proof (ity_pos t Ht).
  assert (Hle : iw t <= iw (promote t)) by (unfold promote; destruct (Z.ltb_spec (iw t) 32); simpl; lia).
  unfold asr_impl. unfold cxx_shift_val at 1. replace ((0 <=? n) && (n <? iw (promote t))) with true by lia.
  cbn -[Z.shiftr cxx_shift_val]. rewrite Z.shiftr_div_pow2 by lia.
  replace (-1 / 2 ^ n) with (-1).
  2:{ pose proof (pow2_pos n ltac:(lia)). apply Z.div_unique with (2 ^ n - 1); lia. }
  simpl. pose proof (cxx_shift_right t x n Ht Hx Hn) as E. rewrite Hs in E. exact E.
Qed.
(** The documented constraint is N < digits; digits is w-1 for signed and w for unsigned types. *)
Lemma lsr_zero_keeps_sign_only t x : ity_ok t -> isg t = false -> word (iw t) x ->
  lsr_impl t 0 x = Ok (Z.land x (2 ^ (iw t - 1))).
Proof.
  intros Ht Hs Hx. unfold lsr_impl. rewrite Hs. unfold lsr_impl_u, cxx_shift_val.
  pose proof (ity_pos t Ht).
  assert (Hle : iw t <= iw (promote t)) by (unfold promote; destruct (Z.ltb_spec (iw t) 32); simpl; lia).
  replace ((0 <=? 0) && (0 <? iw (promote t))) with true by lia.
  replace ((0 <=? iw t - 1) && (iw t - 1 <? iw (promote t))) with true by lia.
  cbn -[Z.pow Z.sub Z.mul Z.land promote renorm]. rewrite Z.eqb_refl. f_equal. unfold renorm, of_val.
  assert (E : ival (promote t) (wrap (iw (promote t)) (1 * 2 ^ (iw t - 1))) = 2 ^ (iw t - 1)).
  { rewrite Z.mul_1_l.
    assert (D : iw (promote t) = iw t /\ isg (promote t) = false \/ iw t < 32 /\ promote t = int32).
    { unfold promote. destruct (Z.ltb_spec (iw t) 32); auto. }
    destruct D as [[D1 D2]|[D1 D2]].
    - unfold ival. rewrite D2, D1. apply wrap_id. unfold word. pose proof (pow2_pos (iw t - 1) ltac:(lia)).
      rewrite (pow2_pred (iw t)) by lia. lia.
    - rewrite D2. unfold ival. simpl isg. cbv iota. apply sgn_wrap; simpl iw; [lia|].
      pose proof (Z.pow_lt_mono_r 2 (iw t - 1) (32 - 1) ltac:(lia) ltac:(lia) ltac:(lia)).
      pose proof (pow2_pos (iw t - 1) ltac:(lia)). lia. }
  rewrite E. apply wrap_id. unfold word in *. split.
  - apply Z.land_nonneg; lia.
  - destruct (Z.eq_dec (Z.land x (2 ^ (iw t - 1))) 0) as [->|Hne]; [apply pow2_pos; lia|].
    apply Z.log2_lt_pow2.
    + assert (0 <= Z.land x (2 ^ (iw t - 1))) by (apply Z.land_nonneg; lia). lia.
    + eapply Z.le_lt_trans; [apply Z.log2_land; [lia|apply Z.lt_le_incl, pow2_pos; lia]|].
      rewrite Z.log2_pow2 by lia. lia.
Qed.
Close Scope Z_scope.
Lemma simd_lsl_elementwise t n N x : length x = N ->
  elementwise1 N (fun v => cxx_shift t true v n) x (simd_lsl t n N x).
Proof. intros. apply (from_result_elementwise1 _ N (fun v => cxx_shift t true v n)); auto. Qed.
Lemma simd_lsr_elementwise t n N x : length x = N -> elementwise1 N (lsr_impl t n) x (simd_lsr t n N x).
Proof. intros. apply (from_result_elementwise1 _ N (lsr_impl t n)); auto. Qed.
Lemma simd_asl_elementwise t n N x : length x = N ->
  elementwise1 N (fun v => cxx_shift t true v n) x (simd_asl t n N x).
Proof. intros. apply (from_result_elementwise1 _ N (fun v => cxx_shift t true v n)); auto. Qed.
Lemma simd_asr_elementwise t n N x : length x = N -> elementwise1 N (asr_impl t n) x (simd_asr t n N x).
Proof. intros. apply (from_result_elementwise1 _ N (asr_impl t n)); auto. Qed.

(** ** What the scalar integer operators compute *)
Open Scope Z_scope.
Lemma arith_fits p v : ity_ok p -> imin p <= v <= imax p -> arith p v = Ok v.
Proof.
  intros Hp Hv. unfold arith. destruct (isg p) eqn:E.
  - rewrite (proj2 (fits_spec p v)); auto.
  - f_equal. unfold imin, imax in Hv. rewrite E in Hv. apply wrap_id. unfold word; lia.
Qed.
(** If the exact mathematical result is representable, the operator returns it. *)
Lemma cxx_bin_exact t o x y :
  ity_ok t -> word (iw t) x -> word (iw t) y ->
  imin t <= exact_val o (ival t x) (ival t y) <= imax t ->
  (o = OpDiv -> ival t y <> 0) ->
  (o = OpMod -> ival t y <> 0 /\ imin t <= Z.quot (ival t x) (ival t y) <= imax t) ->
  (o = OpShl \/ o = OpShr -> 0 <= ival t y < iw t) ->
  exists r, cxx_bin t o x y = Ok r /\ word (iw t) r /\ ival t r = exact_val o (ival t x) (ival t y).
Proof.
  intros Ht Hx Hy Hfit Hd Hm Hs.
  pose proof (promote_ok t Ht) as Hp. pose proof (promote_range t Ht) as Hr.
  assert (Hle : iw t <= iw (promote t)) by (unfold promote; destruct (Z.ltb_spec (iw t) 32); simpl; lia).
  assert (G : cxx_val (promote t) o (ival t x) (ival t y) = Ok (exact_val o (ival t x) (ival t y))).
  { unfold cxx_val. destruct o; cbn [exact_val] in *; try (apply arith_fits; auto; lia); auto.
    - destruct (Z.eqb_spec (ival t y) 0); [exfalso; apply Hd; auto|]. apply arith_fits; auto; lia.
    - destruct (Hm eq_refl) as [Hm1 Hm2].
      destruct (Z.eqb_spec (ival t y) 0); [contradiction|]. rewrite arith_fits by (auto; lia). reflexivity.
    - specialize (Hs (or_introl eq_refl)). unfold cxx_shift_val.
      replace ((0 <=? ival t y) && (ival t y <? iw (promote t))) with true by lia.
      f_equal. unfold renorm. apply ival_of_val; auto; lia.
    - specialize (Hs (or_intror eq_refl)). unfold cxx_shift_val.
      replace ((0 <=? ival t y) && (ival t y <? iw (promote t))) with true by lia.
      f_equal. apply Z.shiftr_div_pow2; lia. }
  unfold cxx_bin. rewrite G. simpl. eexists; split; [reflexivity|]. split.
  - apply of_val_word; auto.
  - apply ival_of_val; auto.
Qed.
(** Unsigned 32/64-bit arithmetic is modulo 2^w. *)
Lemma cxx_bin_modular t o x y :
  ity_ok t -> isg t = false -> 32 <= iw t -> o = OpAdd \/ o = OpSub \/ o = OpMul ->
  cxx_bin t o x y = Ok (exact_val o x y mod 2 ^ iw t).
Proof.
  intros Ht Hs Hw Ho. unfold cxx_bin, promote. destruct (Z.ltb_spec (iw t) 32); [lia|].
  unfold cxx_val, arith, ival. rewrite Hs.
  assert (E : forall v, of_val t (wrap (iw t) v) = v mod 2 ^ iw t).
  { intros v. unfold of_val. rewrite wrap_wrap_le by lia. reflexivity. }
  destruct Ho as [->|[->| ->]]; cbn [bind exact_val]; f_equal; apply E.
Qed.
(** Bitwise operators act on the patterns. *)
Lemma wrap_bits w x i : 0 <= w -> Z.testbit (wrap w x) i = (i <? w) && Z.testbit x i.
Proof.
  intros Hw. unfold wrap. destruct (Z.ltb_spec i w).
  - destruct (Z.ltb_spec i 0); [rewrite !Z.testbit_neg_r by lia; reflexivity|].
    rewrite Z.mod_pow2_bits_low by lia. reflexivity.
  - rewrite Z.mod_pow2_bits_high by lia. reflexivity.
Qed.
Lemma ival_bits t x i : ity_ok t -> word (iw t) x -> i < iw t -> Z.testbit (ival t x) i = Z.testbit x i.
Proof.
  intros Ht Hx Hi. pose proof (ity_pos t Ht).
  rewrite <- (of_val_ival t x Ht Hx) at 2. unfold of_val. rewrite wrap_bits by lia.
  replace (i <? iw t) with true by lia. reflexivity.
Qed.
Lemma word_bits w x i : 0 <= w -> word w x -> w <= i -> Z.testbit x i = false.
Proof.
  intros Hw Hx Hi. rewrite <- (wrap_id w x Hx), wrap_bits by auto.
  replace (i <? w) with false by lia. reflexivity.
Qed.
Lemma cxx_bin_bitwise t x y : ity_ok t -> word (iw t) x -> word (iw t) y ->
  cxx_bin t OpAnd x y = Ok (Z.land x y) /\ cxx_bin t OpOr x y = Ok (Z.lor x y) /\
  cxx_bin t OpXor x y = Ok (Z.lxor x y) /\ cxx_not t x = Ok (2 ^ iw t - 1 - x).
Proof.
  intros Ht Hx Hy. pose proof (ity_pos t Ht).
  assert (G : forall f, (forall i, Z.testbit (f (ival t x) (ival t y)) i = Z.testbit (f x y) i \/ iw t <= i) ->
    (forall i, iw t <= i -> Z.testbit (f x y) i = false) -> wrap (iw t) (f (ival t x) (ival t y)) = f x y).
  { intros f H1 H2. apply Z.bits_inj'. intros i Hi. rewrite wrap_bits by lia.
    destruct (Z.ltb_spec i (iw t)); simpl.
    - destruct (H1 i); [auto|lia].
    - symmetry; apply H2; auto. }
  unfold cxx_bin, cxx_not, cxx_val, of_val; cbn [bind].
  split; [f_equal; apply G; intros i; rewrite ?Z.land_spec
         |split; [f_equal; apply G; intros i; rewrite ?Z.lor_spec
                 |split; [f_equal; apply G; intros i; rewrite ?Z.lxor_spec|]]].
  - destruct (Z.lt_ge_cases i (iw t)); auto. rewrite !ival_bits by auto. auto.
  - intros. rewrite (word_bits (iw t) x), (word_bits (iw t) y); auto; lia.
  - destruct (Z.lt_ge_cases i (iw t)); auto. rewrite !ival_bits by auto. auto.
  - intros. rewrite (word_bits (iw t) x), (word_bits (iw t) y); auto; lia.
  - destruct (Z.lt_ge_cases i (iw t)); auto. rewrite !ival_bits by auto. auto.
  - intros. rewrite (word_bits (iw t) x), (word_bits (iw t) y); auto; lia.
  - f_equal. unfold wrap. unfold Z.lnot, Z.pred.
    assert (E : exists k, ival t x = x + k * 2 ^ iw t).
    { unfold ival. destruct (isg t); [apply sgn_mod; lia|exists 0; lia]. }
    destruct E as [k Hk]. rewrite Hk. symmetry. apply Z.mod_unique with (- k - 1); unfold word in Hx; lia.
Qed.
Close Scope Z_scope.

(** ** Refutations (witnesses found by reading the code) *)
Open Scope Z_scope.
Lemma assign_shift_wrong :
  (exists a b r, simd_assign (int_scalar int32) OpShl 2 a b = Ok r /\ ~ elementwise2 2 (sc_bin (int_scalar int32) OpShl) a b (Ok r)) /\
  (exists a b r, simd_assign (int_scalar int32) OpShr 2 a b = Ok r /\ ~ elementwise2 2 (sc_bin (int_scalar int32) OpShr) a b (Ok r)).
Proof.
  split.
  - exists [8; 8], [1; 1], [4; 4]. split; [reflexivity|]. intros (_ & H).
    destruct (H 0%nat 8 1 ltac:(lia) eq_refl eq_refl) as (z & E1 & E2). vm_compute in E1. vm_compute in E2. congruence.
  - exists [8; 8], [1; 1], [16; 16]. split; [reflexivity|]. intros (_ & H).
    destruct (H 0%nat 8 1 ltac:(lia) eq_refl eq_refl) as (z & E1 & E2). vm_compute in E1. vm_compute in E2. congruence.
Qed.
(** Exactly what the compound vector shifts do instead. *)
Lemma assign_shift_swapped T N a b : length a = N -> length b = N ->
  elementwise2 N (sc_bin T OpShr) a b (simd_assign T OpShl N a b) /\
  elementwise2 N (sc_bin T OpShl) a b (simd_assign T OpShr N a b).
Proof. intros. split; apply simd_binary_elementwise; auto. Qed.
Lemma mask_bitnot_wrong :
  exists m r, length m = 2%nat /\ mask_unary MBitNot 2 m = Ok r /\ mask_unary MNeg 2 m = Ok r /\
    ~ elementwise1 2 (fun x => Ok (negb x)) m (Ok r).
Proof.
  exists [true; false], [true; true]. repeat split; try reflexivity. intros (_ & H).
  destruct (H 0%nat true ltac:(lia) eq_refl) as (z & E1 & E2). vm_compute in E1, E2. congruence.
Qed.
Lemma gsum_ext {A} (op op' : A -> A -> res A) (P : A -> Prop) l v :
  (forall a b, P a -> P b -> op a b = op' a b) -> (forall a b c, P a -> P b -> op a b = Ok c -> P c) ->
  Forall P l -> gsum op l v -> gsum op' l v /\ P v.
Proof.
  intros HE HC HF H. induction H as [x|l l1 l2 x y z Hp H1 IH1 H2 IH2 Hop].
  - inversion HF; subst. split; auto. constructor.
  - assert (Forall P (l1 ++ l2)) as HF' by (eapply Permutation_Forall; eauto).
    apply Forall_app in HF'. destruct HF' as [F1 F2]. destruct (IH1 F1) as [G1 P1], (IH2 F2) as [G2 P2].
    split; [|exact (HC x y z P1 P2 Hop)].
    apply (gsum_split op' l l1 l2 x y z Hp G1 G2). rewrite <- HE; auto.
Qed.
Lemma reduce_add_wrong :
  exists x v, length x = 4%nat /\ Forall (word 32) x /\ hadd (int_scalar uint32) 4 x = Ok v /\
    ~ gsum (cxx_bin uint32 OpAdd) x v.
Proof.
  exists [1; 2; 3; 4], 9. split; [reflexivity|]. split.
  { repeat constructor; unfold word; simpl; lia. }
  split; [reflexivity|]. intros H.
  apply (gsum_ext _ (fun a b => Ok (wrap 32 (a + b))) (fun _ => True)) in H; auto.
  - destruct H as [H _]. apply gsum_wrap_add in H; [|lia]. vm_compute in H. discriminate.
  - intros a b _ _. rewrite (cxx_bin_modular uint32) by (unfold ity_ok; simpl; lia || auto). reflexivity.
Qed.
Lemma lsr_zero_wrong : exists x, word 32 x /\ lsr_impl uint32 0 x <> Ok (lshr_bits 0 x).
Proof. exists 5. split; [unfold word; simpl; lia|]. vm_compute. discriminate. Qed.

Lemma elementwise1_mono {A B} N (f g : A -> res B) a r (P : A -> Prop) :
  Forall P a -> (forall x, P x -> f x = g x) -> elementwise1 N f a r -> elementwise1 N g a r.
Proof.
  intros HF H. rewrite Forall_forall in HF. destruct r; simpl.
  - intros (HL & HE). split; auto. intros i x Hi Hx.
    destruct (HE i x Hi Hx) as (z & Hz & Hr). exists z. rewrite <- H; auto. apply HF. eapply nth_error_In; eauto.
  - intros (i & x & Hi & Hx & E). exists i, x. rewrite <- H; auto. apply HF. eapply nth_error_In; eauto.
Qed.
Lemma shift_functions t n N x :
  ity_ok t -> length x = N -> Forall (word (iw t)) x -> 0 <= n < iw t ->
  elementwise1 N (fun v => Ok (shl_bits (iw t) n v)) x (simd_lsl t n N x) /\
  (1 <= n < iw t -> elementwise1 N (fun v => Ok (lshr_bits n v)) x (simd_lsr t n N x)) /\
  (isg t = true -> elementwise1 N (fun v => Ok (shl_bits (iw t) n v)) x (simd_asl t n N x)) /\
  (isg t = true -> elementwise1 N (fun v => Ok (ashr_bits (iw t) n v)) x (simd_asr t n N x)).
Proof.
  intros Ht HL HF Hn. repeat split; intros.
  - eapply elementwise1_mono; [apply HF| |apply simd_lsl_elementwise; auto]. intros; apply promote_word_shl; auto.
  - eapply elementwise1_mono; [apply HF| |apply simd_lsr_elementwise; auto]. intros; apply lsr_impl_spec; auto.
  - eapply elementwise1_mono; [apply HF| |apply simd_asl_elementwise; auto]. intros; apply promote_word_shl; auto.
  - eapply elementwise1_mono; [apply HF| |apply simd_asr_elementwise; auto]. intros; apply asr_impl_spec; auto.
Qed.
Close Scope Z_scope.

Lemma simd_unary_all T N (x : list (elt T)) :
  length x = N ->
  elementwise1 N (sc_neg T) x (simd_neg T N x) /\
  elementwise1 N (sc_not T) x (simd_not T N x) /\
  simd_plus T x = Ok x /\
  elementwise1 N (fun v => sc_bin T OpAdd v (sc_one T)) x (simd_preinc T N x) /\
  elementwise1 N (fun v => sc_bin T OpSub v (sc_one T)) x (simd_predec T N x) /\
  (forall x', simd_preinc T N x = Ok x' -> simd_postinc T N x = Ok (x, x')) /\
  (forall x', simd_predec T N x = Ok x' -> simd_postdec T N x = Ok (x, x')).
Proof.
  intros HL. repeat split.
  - apply simd_neg_elementwise; auto.
  - apply simd_not_elementwise; auto.
  - apply simd_binary_s_elementwise; auto.
  - apply simd_binary_s_elementwise; auto.
  - intros x' H. unfold simd_postinc. rewrite H. reflexivity.
  - intros x' H. unfold simd_postdec. rewrite H. reflexivity.
Qed.
Lemma cxx_cmp_meaning (t : ity) (x y : Z) :
  (cxx_cmp t CEq x y = true <-> ival t x = ival t y) /\ (cxx_cmp t CNe x y = true <-> ival t x <> ival t y) /\
  (cxx_cmp t CLt x y = true <-> (ival t x < ival t y)%Z) /\ (cxx_cmp t CLe x y = true <-> (ival t x <= ival t y)%Z) /\
  (cxx_cmp t CGt x y = true <-> (ival t x > ival t y)%Z) /\ (cxx_cmp t CGe x y = true <-> (ival t x >= ival t y)%Z) /\
  (cxx_lnot t x = true <-> ival t x = 0%Z).
Proof. unfold cxx_cmp, cxx_lnot, cmp_val. repeat split; lia. Qed.
Lemma mask_assign_elementwise N a b : length a = N -> length b = N ->
  elementwise2 N (fun x y => Ok (andb x y)) a b (mask_assign MAndA N a b) /\
  elementwise2 N (fun x y => Ok (orb x y)) a b (mask_assign MOrA N a b) /\
  elementwise2 N (fun x y => Ok (xorb x y)) a b (mask_assign MXorA N a b).
Proof.
  intros Ha Hb. split; [|split].
  - exact (mask_binary_elementwise MAnd N a b Ha Hb).
  - exact (mask_binary_elementwise MOr N a b Ha Hb).
  - exact (mask_binary_elementwise MXor N a b Ha Hb).
Qed.
Lemma scalar_bool_versions (b : bool) :
  all_of_s b = b /\ any_of_s b = b /\ none_of_s b = negb b /\ some_of_s b = false /\
  reduce_count_s b = count_true [b] /\ (first_true [b] 0 -> reduce_min_index_s b = 0) /\ (last_true [b] 0 -> reduce_max_index_s b = 0).
Proof. destruct b; repeat split; reflexivity. Qed.
Lemma fill_ext {A} N (f g : nat -> res A) r : (forall i, i < N -> f i = g i) -> fill N f r = fill N g r.
Proof. intros H. unfold fill. apply for_up_ext. intros j t Hj. rewrite H by lia. reflexivity. Qed.
Lemma reduce_ignores_1 {A} (zero : A) op x0 x1 x1' (rest : list A) :
  2 <= length rest ->
  reduce zero (2 + length rest) op (x0 :: x1 :: rest) = reduce zero (2 + length rest) op (x0 :: x1' :: rest).
Proof.
  intros HL. unfold reduce. rewrite !copy_to_buffer by reflexivity. cbn [bind].
  change (2 + length rest) with (S (S (length rest))).
  cbn [reduce_arr]. cbv zeta.
  replace (length (x0 :: x1' :: rest)) with (S (S (length rest))) by reflexivity.
  replace (length (x0 :: x1 :: rest)) with (S (S (length rest))) by reflexivity.
  replace (S (S (length rest)) =? 1) with false by lia. replace (S (S (length rest)) =? 2) with false by lia.
  cbn [negb].
  set (M := S (S (length rest))).
  assert (Hd : 2 <= M / 2) by (apply Nat.div_le_lower_bound; unfold M; lia).
  rewrite (fill_ext (M / 2) (fun _ => get (x0 :: x1 :: rest) 0) (fun _ => get (x0 :: x1' :: rest) 0)) by reflexivity.
  rewrite (fill_ext (M - M / 2) (fun i => get (x0 :: x1 :: rest) (M / 2 + i)) (fun i => get (x0 :: x1' :: rest) (M / 2 + i))).
  2:{ intros i _. destruct (M / 2 + i) as [|[|k]] eqn:E; try lia. reflexivity. }
  reflexivity.
Qed.

Lemma mask_binary_all N a b : length a = N -> length b = N ->
  elementwise2 N (fun x y => Ok (andb x y)) a b (mask_binary MAnd N a b) /\
  elementwise2 N (fun x y => Ok (orb x y)) a b (mask_binary MOr N a b) /\
  elementwise2 N (fun x y => Ok (xorb x y)) a b (mask_binary MXor N a b) /\
  elementwise2 N (fun x y => Ok (andb x y)) a b (mask_binary MLAnd N a b) /\
  elementwise2 N (fun x y => Ok (orb x y)) a b (mask_binary MLOr N a b) /\
  elementwise2 N (fun x y => Ok (negb (xorb x y))) a b (mask_binary MEq N a b) /\
  elementwise2 N (fun x y => Ok (xorb x y)) a b (mask_binary MNe N a b).
Proof.
  intros Ha Hb. repeat split;
    first [exact (mask_binary_elementwise MAnd N a b Ha Hb) | exact (mask_binary_elementwise MOr N a b Ha Hb)
          |exact (mask_binary_elementwise MXor N a b Ha Hb) | exact (mask_binary_elementwise MLAnd N a b Ha Hb)
          |exact (mask_binary_elementwise MLOr N a b Ha Hb) | exact (mask_binary_elementwise MEq N a b Ha Hb)
          |exact (mask_binary_elementwise MNe N a b Ha Hb)].
Qed.
