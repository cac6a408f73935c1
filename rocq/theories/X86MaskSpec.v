(** Mask reductions of the x86 backend in terms of the boolean elements (C15, C16). *)
From Coq Require Import ZifyBool ZifyNat.
From Verif Require Import Base Cxx Spec Generic GenericProofs X86Vec X86 X86Lemmas X86Proofs X86Masks X86Ops X86Mem.
Set Implicit Arguments.

(** Closed forms of the generic reductions. *)
Lemma all_of_forallb N m : length m = N -> all_of N m = Ok (forallb (fun b => b) m).
Proof.
  intros HL. destruct (all_of_spec N m HL) as (r & -> & H). f_equal. apply eq_true_iff_eq. rewrite H, forallb_forall. split.
  - intros K x Hx. apply In_nth_error in Hx. destruct Hx as [i Hi].
    rewrite K in Hi by (rewrite <- HL; apply nth_error_Some; congruence). congruence.
  - intros K i Hi. destruct (nth_error m i) as [b|] eqn:E; [f_equal; apply K; eapply nth_error_In; eauto|].
    apply nth_error_None in E. lia.
Qed.
Lemma any_of_existsb N m : length m = N -> any_of N m = Ok (existsb (fun b => b) m).
Proof.
  intros HL. destruct (any_of_spec N m HL) as (r & -> & H). f_equal. apply eq_true_iff_eq. rewrite H, existsb_exists. split.
  - intros (i & Hi & E). exists true. split; auto. eapply nth_error_In; eauto.
  - intros (x & Hx & ->). apply In_nth_error in Hx. destruct Hx as [i Hi]. exists i. split; auto. rewrite <- HL; apply nth_error_Some; congruence.
Qed.
Lemma none_of_existsb N m : length m = N -> none_of N m = Ok (negb (existsb (fun b => b) m)).
Proof. intros HL. unfold none_of. rewrite any_of_existsb by auto. reflexivity. Qed.
Lemma some_of_closed N m : length m = N -> some_of N m = Ok (existsb (fun b => b) m && negb (forallb (fun b => b) m)).
Proof.
  intros HL. unfold some_of.
  destruct (for_up_inv (fun k s => s = (existsb (fun b => b) (firstn k m), forallb (fun b => b) (firstn k m))) 0 N
    (fun i s => b <- get m i;; Ok (fst s || b, snd s && b)) (false, true)) as (r & Hr & HP); auto; try lia.
  - intros j t Hj Ht. destruct (get_lt_ok m j ltac:(lia)) as [v Hv]. rewrite Hv. simpl. subst t.
    eexists; split; eauto. rewrite (firstn_snoc _ _ _ Hv), existsb_app, forallb_app. simpl.
    rewrite orb_false_r, andb_true_r. reflexivity.
  - rewrite Hr, HP, firstn_exact by auto. reflexivity.
Qed.
Lemma first_true_ex m : existsb (fun b => b) m = true -> exists i, first_true m i.
Proof.
  induction m as [|b m IH]; [discriminate|]. destruct b; intros H.
  - exists 0. split; auto. intros; lia.
  - destruct (IH H) as (i & H1 & H2). exists (S i). split; auto. intros [|j] Hj; auto. apply H2. lia.
Qed.
Lemma last_true_ex m : existsb (fun b => b) m = true -> exists i, last_true m i.
Proof.
  induction m as [|b m IH]; [discriminate|]. intros H. destruct (existsb (fun b => b) m) eqn:E.
  - destruct (IH eq_refl) as (i & H1 & H2). exists (S i). split; auto. intros [|j] Hj Hl; [lia|]. apply H2; cbn in Hl; lia.
  - destruct b; [|cbn in H; congruence]. exists 0. split; auto. intros [|j] Hj Hl; [lia|]. cbn in Hl |- *.
    destruct (nth_error m j) as [[]|] eqn:En; auto.
    + exfalso. assert (X : existsb (fun b => b) m = true) by (apply existsb_exists; exists true; split; auto; eapply nth_error_In; eauto). congruence.
    + apply nth_error_None in En. lia.
Qed.

(** A mask whose true lanes the float comparison with zero recognises: for float types, no element lane is the pattern
    of -0.0 (2^(w-1)).  Every mask with lanes 0 / all ones is one. *)
Definition no_neg_zero (X : xty) (m : list vec) : Prop :=
  is_int (xT X) = true \/ forall i l, nth_error (elems X m) i = Some l -> l <> (2 ^ (xw X - 1))%Z.

Section WF.
Context (X : xty) (HX : xty_ok X).
Let w := xw X.
Lemma mask_elems_length m : shaped X m -> length (mask_elems X m) = xN X.
Proof. intros Hm. unfold mask_elems. rewrite map_length. apply elems_length; auto. Qed.
Lemma truth_good m l : shaped X m -> no_neg_zero X m -> In l (elems X m) -> truth X l = nz l.
Proof.
  intros Hm Hg Hl. destruct HX as (_ & HT & _). assert (W : word w l) by (eapply words_In; [apply (elems_words Hm)|auto]).
  destruct Hg as [Hi|Hg]; [apply truth_int; auto|]. apply In_nth_error in Hl. destruct Hl as [i Hi]. apply truth_nz; auto. intros _. eapply Hg; eauto.
Qed.
Lemma truth_mask_elems m : shaped X m -> no_neg_zero X m -> map (truth X) (elems X m) = mask_elems X m.
Proof. intros Hm Hg. apply map_ext_in. intros. eapply truth_good; eauto. Qed.
Lemma any_truth_elems m : shaped X m -> sse41 (xc X) = true \/ no_neg_zero X m -> map (any_truth X) (elems X m) = mask_elems X m.
Proof.
  intros Hm Hg. unfold any_truth. destruct (sse41 (xc X)); [reflexivity|]. destruct Hg; [discriminate|]. apply truth_mask_elems; auto.
Qed.
Lemma forallb_map_id {A} (f : A -> bool) l : forallb f l = forallb (fun b => b) (map f l).
Proof. induction l; simpl; auto. rewrite IHl. auto. Qed.
Lemma x_all_of_ok m : tails_safe X -> shaped X m -> no_neg_zero X m -> x_all_of X m = all_of (xN X) (mask_elems X m).
Proof.
  intros Hs Hm Hg. rewrite all_of_forallb by (apply mask_elems_length; auto).
  rewrite all_of_truth by auto. rewrite forallb_map_id, truth_mask_elems; auto.
Qed.
Lemma x_any_of_ok m : tails_safe X -> shaped X m -> sse41 (xc X) = true \/ no_neg_zero X m ->
  x_any_of X m = any_of (xN X) (mask_elems X m) /\ x_none_of X m = none_of (xN X) (mask_elems X m).
Proof.
  intros Hs Hm Hg. rewrite any_of_existsb, none_of_existsb by (apply mask_elems_length; auto).
  destruct (any_of_truth HX Hs Hm) as [-> ->]. rewrite <- (existsb_map_id (any_truth X)), any_truth_elems; auto.
Qed.
Lemma x_some_of_ok m : tails_safe X -> shaped X m -> no_neg_zero X m -> x_some_of X m = some_of (xN X) (mask_elems X m).
Proof.
  intros Hs Hm Hg. rewrite some_of_closed by (apply mask_elems_length; auto).
  rewrite some_of_truth by auto. rewrite <- (existsb_map_id (any_truth X)), any_truth_elems, forallb_map_id, truth_mask_elems; auto.
Qed.
Lemma x_reduce_count_ok m : tails_safe X -> shaped X m -> no_neg_zero X m -> x_reduce_count X m = Ok (count_true (mask_elems X m)).
Proof.
  intros Hs Hm Hg. rewrite reduce_count_truth by auto. rewrite <- (count_filter (truth X)), truth_mask_elems; auto.
Qed.
Lemma nth_mask_elems m i b : nth_error (mask_elems X m) i = Some b -> exists l, nth_error (elems X m) i = Some l /\ b = nz l.
Proof.
  unfold mask_elems. rewrite nth_error_map. destruct (nth_error (elems X m) i) as [l|]; [|discriminate].
  intros H; inversion H. exists l. auto.
Qed.
Lemma elems_nth m i l : nth_error (elems X m) i = Some l -> nth i (concat m) 0%Z = l /\ i < xN X.
Proof.
  intros H. assert (L : i < length (elems X m)) by (apply nth_error_Some; congruence). unfold elems in *. rewrite firstn_length in L.
  split; [|lia]. apply get_ok in H. rewrite get_firstn in H by lia. apply get_ok in H. apply nth_error_nth; auto.
Qed.
Lemma mask_nth_truth m i b : shaped X m -> no_neg_zero X m -> nth_error (mask_elems X m) i = Some b ->
  truth X (nth i (concat m) 0%Z) = b /\ i < xN X.
Proof.
  intros Hm Hg H. apply nth_mask_elems in H. destruct H as (l & Hl & ->). destruct (elems_nth _ _ Hl) as [-> Hi]. split; auto.
  eapply truth_good; eauto. eapply nth_error_In; eauto.
Qed.
Lemma x_min_index_ok m i : shaped X m -> no_neg_zero X m -> first_true (mask_elems X m) i -> x_reduce_min_index X m = Ok i.
Proof.
  intros Hm Hg (H1 & H2). rewrite min_index_truth by auto. destruct (mask_nth_truth _ Hm Hg H1) as [T1 Hi].
  rewrite (proj2 (idx_some (truth X) (concat m) i)); auto. split; [|split; auto].
  - destruct (concat_shaped Hm) as [-> _]. pose proof (N_le_M HX). lia.
  - intros j Hj. eapply mask_nth_truth; eauto.
Qed.
Lemma x_max_index_ok m i : shaped X m -> no_neg_zero X m -> last_true (mask_elems X m) i -> x_reduce_max_index X m = Ok (i + max_shift X i).
Proof.
  intros Hm Hg (H1 & H2). destruct (max_index_truth HX Hm) as [H _]. apply H. destruct (mask_nth_truth _ Hm Hg H1) as [T1 Hi].
  split; [|split]; auto. intros j Hj. eapply mask_nth_truth; eauto. apply H2; [lia|]. rewrite mask_elems_length; auto; lia.
Qed.
Lemma max_shift_zero i : full X \/ i < xN X / ext X * ext X -> i < xN X -> max_shift X i = 0.
Proof.
  intros H Hi. unfold max_shift. pose proof (e_pos HX). destruct (Nat.eqb_spec (i / ext X) (dsz X - 1)) as [E|]; auto.
  destruct H as [H|H]; [rewrite (proj2 (M_full HX)) by auto; lia|].
  assert (i / ext X < xN X / ext X) by (apply Nat.div_lt_upper_bound; lia).
  unfold dsz in *. unfold full in *. pose proof (Nat.div_mod (xN X) (ext X) ltac:(lia)). destruct (Nat.eqb_spec (xN X mod ext X) 0); lia.
Qed.
Lemma canon_no_neg_zero m : (forall i l, nth_error (elems X m) i = Some l -> l = 0%Z \/ l = ones w) -> no_neg_zero X m.
Proof.
  intros H. right. intros i l Hl E. pose proof (w_pos HX) as Hw. destruct (H i l Hl) as [K|K]; subst l.
  - pose proof (pow2_pos (xw X - 1)). lia.
  - unfold ones, w in K. rewrite (pow2_pred (xw X)) in K by lia. pose proof (pow2_pos (xw X - 2) ltac:(lia)) as P. rewrite (pow2_pred (xw X - 1)) in K by lia. replace (xw X - 1 - 1)%Z with (xw X - 2)%Z in K by lia. lia.
Qed.
Lemma no_true_ub m : shaped X m -> no_neg_zero X m -> (forall i b, nth_error (mask_elems X m) i = Some b -> b = false) -> x_reduce_max_index X m = UB.
Proof.
  intros Hm Hg H. destruct (max_index_truth HX Hm) as [_ K]. apply K. intros q Hq.
  destruct (nth_error (mask_elems X m) q) as [b|] eqn:E.
  - destruct (mask_nth_truth _ Hm Hg E) as [-> _]. eauto.
  - apply nth_error_None in E. rewrite mask_elems_length in E by auto. lia.
Qed.
End WF.
