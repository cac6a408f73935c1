(** Proofs about the x86 backend, part 2: mask reductions. *)
From Coq Require Import ZifyBool ZifyNat.
From Verif Require Import Base Cxx Spec Generic GenericProofs X86Vec X86 X86Lemmas X86Proofs.
Set Implicit Arguments.

(** *** Bit sets as lists of booleans *)
Lemma testbit_bits_Z l i : Z.testbit (bits_Z l) (Z.of_nat i) = nth i l false.
Proof.
  revert i; induction l as [|b l IH]; intros i.
  - simpl bits_Z. rewrite Z.testbit_0_l. destruct i; auto.
  - cbn [bits_Z]. destruct i as [|i].
    + simpl (Z.of_nat 0). rewrite Z.add_comm, Z.testbit_0_r. reflexivity.
    + rewrite Nat2Z.inj_succ, Z.add_comm, Z.testbit_succ_r by lia. apply IH.
Qed.
Lemma bits_Z_range l : (0 <= bits_Z l < 2 ^ Z.of_nat (length l))%Z.
Proof.
  induction l as [|b l IH]; [simpl; lia|]. cbn [bits_Z length]. rewrite Nat2Z.inj_succ, Z.pow_succ_r by lia.
  destruct b; simpl Z.b2z; lia.
Qed.
Lemma bits_Z_app a b : bits_Z (a ++ b) = (bits_Z a + 2 ^ Z.of_nat (length a) * bits_Z b)%Z.
Proof.
  induction a as [|x a IH]; [simpl (2 ^ _)%Z; simpl app; simpl (bits_Z []); lia|].
  cbn [app bits_Z length]. rewrite IH, Nat2Z.inj_succ, Z.pow_succ_r by lia. lia.
Qed.
Lemma bits_Z_lor a b : Z.lor (Z.shiftl (bits_Z b) (Z.of_nat (length a))) (bits_Z a) = bits_Z (a ++ b).
Proof.
  apply Z.bits_inj'. intros n Hn. rewrite <- (Z2Nat.id n) by lia. set (i := Z.to_nat n).
  rewrite Z.lor_spec, !testbit_bits_Z. destruct (Nat.lt_ge_cases i (length a)).
  - rewrite Z.shiftl_spec_low by lia. rewrite app_nth1 by lia. auto.
  - rewrite Z.shiftl_spec by lia. rewrite app_nth2, (nth_overflow a) by lia.
    rewrite orb_false_r, <- Nat2Z.inj_sub by lia. apply testbit_bits_Z.
Qed.
Lemma bits_Z_inj a b : length a = length b -> bits_Z a = bits_Z b -> a = b.
Proof.
  revert b; induction a as [|x a IH]; intros [|y b] HL H; simpl in HL; try lia; auto.
  cbn [bits_Z] in H. assert (x = y /\ bits_Z a = bits_Z b) as [-> E] by (destruct x, y; simpl Z.b2z in H; split; auto; lia).
  f_equal. apply IH; auto.
Qed.
Lemma bits_Z_0 l : (bits_Z l =? 0)%Z = negb (existsb (fun b => b) l).
Proof.
  induction l as [|b l IH]; [reflexivity|]. cbn [bits_Z existsb]. pose proof (bits_Z_range l).
  destruct b; simpl Z.b2z; cbn [orb negb]; [lia|]. rewrite <- IH. lia.
Qed.
Lemma fill_bits_repeat n : fill_bits n = bits_Z (repeat true n).
Proof.
  unfold fill_bits. induction n; [reflexivity|]. cbn [repeat bits_Z]. rewrite <- IHn, Nat2Z.inj_succ, Z.pow_succ_r by lia.
  simpl Z.b2z. lia.
Qed.
Lemma filter_map_comm {A B} (f : B -> bool) (g : A -> B) l : filter f (map g l) = map g (filter (fun x => f (g x)) l).
Proof. induction l; simpl; auto. destruct (f (g a)); simpl; rewrite IHl; auto. Qed.
Lemma count_seq l n : length l <= n -> length (filter (fun i => nth i l false) (seq 0 n)) = count_true l.
Proof.
  revert n; induction l as [|b l IH]; intros n H.
  - unfold count_true; simpl. rewrite filter_ext with (g := fun _ => false) by (intros [|]; auto).
    induction (seq 0 n); simpl; auto.
  - destruct n as [|n]; [simpl in H; lia|]. simpl seq. rewrite <- seq_shift. cbn [filter nth].
    unfold count_true. simpl filter. destruct b; rewrite filter_map_comm; cbn [length]; rewrite map_length;
    rewrite IH by (simpl in H; lia); reflexivity.
Qed.
Lemma popcount_bits l : length l <= 64 -> popcount64 (bits_Z l) = count_true l.
Proof.
  intros H. unfold popcount64. rewrite <- (@count_seq l 64) by auto. f_equal. apply filter_ext.
  intros i. apply testbit_bits_Z.
Qed.
Lemma find_seq (P : nat -> bool) n i : i < n -> P i = true -> (forall j, j < i -> P j = false) -> find P (seq 0 n) = Some i.
Proof.
  intros Hi HP Hlt. replace n with (i + S (n - i - 1)) by lia. rewrite seq_app.
  assert (E : forall k s, s + k <= i -> find P (seq s k ++ seq (0 + i) (S (n - i - 1))) = find P (seq (0 + i) (S (n - i - 1)))).
  { induction k; intros s Hs; [reflexivity|]. simpl seq. cbn [app find]. rewrite Hlt by lia. apply IHk. lia. }
  rewrite E by lia. simpl. rewrite HP. auto.
Qed.
Lemma ctz_bits l i : length l <= 64 -> nth i l false = true -> (forall j, j < i -> nth j l false = false) -> ctz64 (bits_Z l) = i.
Proof.
  intros HL Hi Hlt. assert (i < length l). { destruct (Nat.lt_ge_cases i (length l)); auto. rewrite nth_overflow in Hi by auto; discriminate. }
  unfold ctz64. rewrite find_seq with (i := i); auto; [lia|rewrite testbit_bits_Z; auto|].
  intros j Hj. rewrite testbit_bits_Z. auto.
Qed.

(** *** movemask *)
Lemma flat_map_app {A B} (f : A -> list B) a b : flat_map f (a ++ b) = flat_map f a ++ flat_map f b.
Proof. induction a; simpl; auto. rewrite IHa, app_assoc. auto. Qed.
Lemma lane_bits_length X v : length (flat_map (lane_bits X) v) = length v * mmbits X.
Proof. unfold lane_bits, mmbits. induction v; simpl; auto. destruct (esz (xT X) =? 2); simpl in *; lia. Qed.
Lemma movemask_bits X v : xty_ok X -> wfv X v -> movemask X v = bits_Z (flat_map (lane_bits X) v).
Proof.
  intros HX [HL HW]. unfold movemask. destruct (is256 X && (esz (xT X) <=? 2) && negb (avx2 (xc X))) eqn:E; [|reflexivity].
  assert (E256 : is256 X = true) by (destruct (is256 X); auto).
  pose proof (ext_half HX E256) as Eh. rewrite Eh in HL. destruct (even_half v _ HL) as [Ll Lh].
  unfold movemask1. rewrite <- (halves v) at 3. rewrite flat_map_app, <- bits_Z_lor, lane_bits_length, Ll. reflexivity.
Qed.
Definition rep (X : xty) (b : bool) : list bool := repeat b (mmbits X).
Lemma lane_bits_canon X bs : xty_ok X -> flat_map (lane_bits X) (map (mlane (xw X)) bs) = flat_map (rep X) bs.
Proof.
  intros (_ & HT & _). induction bs as [|b bs IH]; [reflexivity|]. cbn [map flat_map]. rewrite IH. f_equal.
  unfold lane_bits, rep, mmbits. pose proof (xw_pos _ HT). destruct (Nat.eqb_spec (esz (xT X)) 2) as [E|E].
  - unfold xw, ew in *. rewrite E. rewrite !testbit_mlane by lia. reflexivity.
  - rewrite testbit_mlane by lia. reflexivity.
Qed.
Lemma canon_wf X bs : xty_ok X -> length bs = ext X -> wfv X (map (mlane (xw X)) bs).
Proof.
  intros (_ & HT & _) HL. pose proof (xw_pos _ HT). split; [rewrite map_length; auto|].
  apply Forall_map, Forall_forall. intros; apply word_mlane; lia.
Qed.
Lemma movemask_canon X bs : xty_ok X -> length bs = ext X ->
  movemask X (map (mlane (xw X)) bs) = bits_Z (flat_map (rep X) bs).
Proof. intros HX HL. rewrite movemask_bits, lane_bits_canon by auto using canon_wf. auto. Qed.
Lemma rep_length X bs : length (flat_map (rep X) bs) = length bs * mmbits X.
Proof. unfold rep. induction bs; simpl; auto. rewrite app_length, repeat_length, IHbs. lia. Qed.
Lemma mmbits_cases X : mmbits X = 1 \/ mmbits X = 2.
Proof. unfold mmbits. destruct (esz (xT X) =? 2); auto. Qed.
Lemma mm_ext X : xty_ok X -> ext X * mmbits X <= 32.
Proof.
  intros H. destruct (ext_cases H) as (E & _ & _). rewrite E. destruct H as (_ & HT & _). apply esz_cases in HT.
  unfold mmbits. destruct HT as [Es|[Es|[Es|Es]]]; rewrite Es; destruct (is256 X); cbv; lia.
Qed.
Lemma rep_all X bs : bits_Z (flat_map (rep X) bs) = fill_bits (length bs * mmbits X) <-> forallb (fun b => b) bs = true.
Proof.
  rewrite fill_bits_repeat. split.
  - intros H. apply bits_Z_inj in H; [|rewrite rep_length, repeat_length; auto].
    assert (Hall : forall b, In b (flat_map (rep X) bs) -> b = true).
    { intros b Hb. rewrite H in Hb. apply repeat_spec in Hb; auto. }
    apply forallb_forall. intros b Hb. apply Hall. apply in_flat_map. exists b; split; auto.
    unfold rep. destruct (mmbits_cases X) as [E|E]; rewrite E; simpl; auto.
  - intros H. f_equal. induction bs as [|b bs IH]; [reflexivity|].
    cbn [forallb] in H. apply andb_prop in H. destruct H as [-> H]. cbn [flat_map length]. rewrite IH by auto.
    unfold rep. rewrite <- repeat_app. reflexivity.
Qed.
Lemma rep_count X bs : count_true (flat_map (rep X) bs) = count_true bs * mmbits X.
Proof.
  unfold count_true, rep. induction bs as [|b bs IH]; [reflexivity|]. cbn [flat_map]. rewrite filter_app, app_length, IH.
  destruct (mmbits_cases X) as [E|E]; rewrite E; destruct b; simpl; lia.
Qed.
Lemma rep_exists X bs : existsb (fun b => b) (flat_map (rep X) bs) = existsb (fun b => b) bs.
Proof.
  unfold rep. induction bs as [|b bs IH]; [reflexivity|]. cbn [flat_map existsb]. rewrite existsb_app, IH.
  destruct (mmbits_cases X) as [E|E]; rewrite E; destruct b; reflexivity.
Qed.
Lemma rep_nth X bs i : nth i (flat_map (rep X) bs) false = nth (i / mmbits X) bs false.
Proof.
  unfold rep. destruct (mmbits_cases X) as [E|E]; rewrite E; clear E.
  - rewrite Nat.div_1_r. revert i; induction bs as [|b bs IH]; intros [|i]; simpl; auto.
  - revert i; induction bs as [|b bs IH]; intros i.
    + simpl flat_map. destruct i, (_ / 2); reflexivity.
    + destruct i as [|[|i]]; [reflexivity|reflexivity|].
      change (nth i (flat_map (fun b0 => repeat b0 2) bs) false = nth (S (S i) / 2) (b :: bs) false).
      replace (S (S i)) with (i + 1 * 2) by lia. rewrite Nat.div_add, Nat.add_1_r by lia. apply IH.
Qed.

(** *** Loops over the native vectors *)
Lemma for_get_fold {A S} (m : list A) (F : nat -> A -> S -> S) s :
  for_up 0 (length m) (fun i s => v <- get m i;; Ok (F i v s)) s
  = Ok (fold_left (fun s p => F (fst p) (snd p) s) (combine (seq 0 (length m)) m) s).
Proof.
  unfold for_up. rewrite Nat.sub_0_r.
  assert (G : forall (m' pre : list A) s, m = pre ++ m' ->
    for_n (length m') (length pre) (fun i s => v <- get m i;; Ok (F i v s)) s
    = Ok (fold_left (fun s p => F (fst p) (snd p) s) (combine (seq (length pre) (length m')) m') s)).
  { induction m' as [|x m' IH]; intros pre t E; [reflexivity|].
    cbn [length for_n]. rewrite E at 1. rewrite get_app_r by lia. rewrite Nat.sub_diag, get_cons_0. cbn [bind].
    cbn [seq combine fold_left fst snd].
    replace (Datatypes.S (length pre)) with (length (pre ++ [x])) by (rewrite app_length; simpl; lia).
    apply IH. rewrite E, <- app_assoc. reflexivity. }
  apply (G m []). reflexivity.
Qed.
(** the vectors after masking the tail with [f] *)
Definition masked (X : xty) (f : vec -> Z -> vec) (m : list vec) : list vec :=
  map (fun p => f (snd p) (tail_n X (fst p))) (combine (seq 0 (length m)) m).
Lemma fold_masked {S} (X : xty) (f : vec -> Z -> vec) (G : vec -> S -> S) (m : list vec) s :
  fold_left (fun s p => G (f (snd p) (tail_n X (fst p))) s) (combine (seq 0 (length m)) m) s
  = fold_left (fun s v => G v s) (masked X f m) s.
Proof.
  unfold masked. generalize (combine (seq 0 (length m)) m) as l. intros l. revert s; induction l; intros s; simpl; auto.
Qed.
(** tails are masked correctly: everything but 256-bit vectors of 1- and 2-byte elements without AVX2 whose tail
    has at most half a vector of elements *)
Definition tails_safe (X : xty) : Prop :=
  is256 X = false \/ 2 < esz (xT X) \/ avx2 (xc X) = true \/
  xN X mod ext X = 0 \/ ext X < 2 * (xN X mod ext X).
Lemma tail_n_pos X i : xty_ok X -> i < dsz X -> (0 < tail_n X i < 2 ^ 64)%Z.
Proof.
  intros HX Hi. pose proof (dsz_spec HX) as (H1 & H2 & H3). unfold tail_n.
  assert (i * ext X <= (dsz X - 1) * ext X) by nia. destruct HX as (_ & _ & HN & _). lia.
Qed.
Lemma tails_safe_at X i : xty_ok X -> tails_safe X -> i < dsz X -> tail_safe X (tail_n X i).
Proof.
  intros HX Hs Hi. unfold tail_safe. destruct Hs as [H|[H|[H|H]]]; auto. do 3 right.
  pose proof (ext_pos HX) as He. pose proof (dsz_spec HX) as (H1 & H2 & H3).
  pose proof (Nat.div_mod (xN X) (ext X) ltac:(lia)) as E.
  pose proof (Nat.mod_upper_bound (xN X) (ext X) ltac:(lia)) as Em.
  unfold tail_n. assert (i * ext X <= xN X / ext X * ext X \/ i * ext X + ext X <= xN X).
  { unfold dsz in Hi. destruct (Nat.eqb_spec (xN X mod ext X) 0); nia. }
  unfold dsz in Hi. destruct (Nat.eqb_spec (xN X mod ext X) 0).
  - assert (i * ext X + ext X <= xN X) by nia. lia.
  - destruct H as [H|H]; [lia|]. assert (i < xN X / ext X \/ i = xN X / ext X) as [Hl|Hl] by lia.
    + assert (i * ext X + ext X <= xN X) by nia. lia.
    + subst i. lia.
Qed.
Lemma sel_fill n (v : vec) c e : length v = e -> sel n v (repeat c e) = firstn n v ++ repeat c (e - n).
Proof.
  intros H. unfold sel. f_equal. clear H. revert e; induction n; intros e; [simpl; rewrite Nat.sub_0_r; auto|].
  destruct e; [reflexivity|]. simpl. apply IHn.
Qed.
Lemma concat_sel (N e : nat) c (x : list vec) s : 0 < e -> Forall (fun v => length v = e) x ->
  (x <> [] -> (s + (length x - 1)) * e < N) ->
  concat (map (fun p => sel (N - fst p * e) (snd p) (repeat c e)) (combine (seq s (length x)) x))
  = firstn (N - s * e) (concat x) ++ repeat c (length x * e - (N - s * e)).
Proof.
  intros He H. revert s; induction H as [|v x Hv Hx IH]; intros s Hs.
  - cbn [length seq combine map concat]. rewrite firstn_nil. reflexivity.
  - cbn [length seq combine map concat fst snd]. rewrite IH.
    2:{ intros Hne. specialize (Hs ltac:(discriminate)). cbn [length] in Hs. destruct x; [congruence|]. simpl length in *. nia. }
    rewrite sel_fill by auto. specialize (Hs ltac:(discriminate)). cbn [length] in Hs.
    destruct x as [|v' x'].
    + cbn [concat length]. rewrite firstn_nil. replace (0 * e - (N - S s * e)) with 0 by lia.
      cbn [repeat app]. rewrite !app_nil_r. f_equal. f_equal. lia.
    + cbn [length] in Hs. assert (e <= N - s * e) by nia.
      rewrite (firstn_all2 v) by lia. replace (e - (N - s * e)) with 0 by lia. rewrite app_nil_r.
      rewrite (firstn_app (N - s * e) v). rewrite (firstn_all2 v (n := N - s * e)) by lia. rewrite <- app_assoc. f_equal.
      rewrite Hv. replace (N - s * e - e) with (N - S s * e) by nia. f_equal. f_equal. cbn [length]. nia.
Qed.
Lemma masked_spec X f c m : xty_ok X -> shaped X m ->
  (forall i v, i < dsz X -> wfv X v -> f v (tail_n X i) = sel (Z.to_nat (tail_n X i)) v (repeat c (ext X))) ->
  concat (masked X f m) = elems X m ++ repeat c (dsz X * ext X - xN X).
Proof.
  intros HX Hm Hf. unfold masked.
  assert (E : map (fun p => f (snd p) (tail_n X (fst p))) (combine (seq 0 (length m)) m)
            = map (fun p => sel (xN X - fst p * ext X) (snd p) (repeat c (ext X))) (combine (seq 0 (length m)) m)).
  { apply map_ext_in. intros [i v] Hin. simpl. pose proof (in_combine_l _ _ _ _ Hin) as H1. pose proof (in_combine_r _ _ _ _ Hin) as H2.
    apply in_seq in H1. destruct Hm as [HL HW]. rewrite Hf; [|lia|].
    - f_equal. unfold tail_n. lia.
    - apply (proj1 (Forall_forall _ _) HW); auto. }
  rewrite E, concat_sel.
  - unfold elems. simpl (0 * ext X). rewrite Nat.sub_0_r. destruct Hm as [-> _]. reflexivity.
  - apply ext_pos; auto.
  - apply shaped_len; auto.
  - intros _. destruct Hm as [-> _]. pose proof (dsz_spec HX). lia.
Qed.
Lemma masked_wf X f m : xty_ok X -> shaped X m ->
  (forall i v, i < dsz X -> wfv X v -> wfv X (f v (tail_n X i))) -> Forall (wfv X) (masked X f m).
Proof.
  intros HX [HL HW] Hf. unfold masked. apply Forall_map, Forall_forall. intros [i v] Hin. simpl.
  pose proof (in_combine_l _ _ _ _ Hin) as H1. pose proof (in_combine_r _ _ _ _ Hin) as H2. apply in_seq in H1.
  apply Hf; [lia|]. apply (proj1 (Forall_forall _ _) HW); auto.
Qed.
Lemma sel_wf X n a b : wfv X a -> wfv X b -> wfv X (sel n a b).
Proof.
  intros [L1 W1] [L2 W2]. split; [rewrite sel_length; lia|]. apply words_app. split; [apply words_firstn|apply words_skipn]; auto.
Qed.
Lemma maskzero_wf X i v : xty_ok X -> tails_safe X -> i < dsz X -> wfv X v -> wfv X (maskzero X v (tail_n X i)).
Proof. intros. rewrite maskzero_sel by auto using tail_n_pos, tails_safe_at. apply sel_wf; auto using zerov_wf. Qed.
Lemma maskone_wf X i v : xty_ok X -> tails_safe X -> i < dsz X -> wfv X v -> wfv X (maskone X v (tail_n X i)).
Proof. intros. rewrite maskone_sel by auto using tail_n_pos, tails_safe_at. apply sel_wf; auto using onesv_wf. Qed.
Lemma masked_zero X m : xty_ok X -> tails_safe X -> shaped X m ->
  concat (masked X (maskzero X) m) = elems X m ++ repeat 0%Z (dsz X * ext X - xN X) /\ Forall (wfv X) (masked X (maskzero X) m).
Proof.
  intros HX Hs Hm. split.
  - apply masked_spec; auto. intros. apply maskzero_sel; auto using tail_n_pos, tails_safe_at.
  - apply masked_wf; auto. intros. apply maskzero_wf; auto.
Qed.
Lemma masked_one X m : xty_ok X -> tails_safe X -> shaped X m ->
  concat (masked X (maskone X) m) = elems X m ++ repeat (ones (xw X)) (dsz X * ext X - xN X) /\ Forall (wfv X) (masked X (maskone X) m).
Proof.
  intros HX Hs Hm. split.
  - apply masked_spec; auto. intros. apply maskone_sel; auto using tail_n_pos, tails_safe_at.
  - apply masked_wf; auto. intros. apply maskone_wf; auto.
Qed.

(** *** all_of *)
Definition all_step (X : xty) (v : vec) (r : vec) : vec := v_andnot (cmp_eq X v (zerov X)) r.
Lemma all_step_canon X v bs : xty_ok X -> wfv X v -> length bs = ext X ->
  all_step X v (map (mlane (xw X)) bs) = map (mlane (xw X)) (vmap2 (fun l b => b && truth X l) v bs).
Proof.
  intros HX Hv HL. unfold all_step, v_andnot. rewrite cmp_eq_zero by auto. rewrite vmap2_map, map_vmap2.
  apply vmap2_ext. intros l b _ _. rewrite ldiff_mlane, negb_involutive; auto.
  pose proof (xw_pos _ (proj1 (proj2 HX))). lia.
Qed.
Lemma forallb_vmap2 (t : Z -> bool) v bs : length v = length bs ->
  forallb (fun b => b) (vmap2 (fun l b => b && t l) v bs) = forallb (fun b => b) bs && forallb t v.
Proof.
  revert bs; induction v as [|l v IH]; intros [|b bs] H; simpl in *; try lia; auto.
  rewrite IH by lia. destruct b, (t l), (forallb (fun b => b) bs); auto.
Qed.
Lemma all_fold X vs bs : xty_ok X -> Forall (wfv X) vs -> length bs = ext X ->
  exists bs', fold_left (fun r v => all_step X v r) vs (map (mlane (xw X)) bs) = map (mlane (xw X)) bs' /\ length bs' = ext X /\
    forallb (fun b => b) bs' = forallb (fun b => b) bs && forallb (truth X) (concat vs).
Proof.
  intros HX H. revert bs; induction H as [|v vs Hv Hvs IH]; intros bs HL.
  - exists bs. simpl. rewrite andb_true_r. auto.
  - simpl fold_left. rewrite all_step_canon by auto.
    destruct (IH (vmap2 (fun l b => b && truth X l) v bs)) as (bs' & E & L & F).
    { rewrite vmap2_length. destruct Hv. lia. }
    exists bs'. split; [auto|]. split; auto. rewrite F, forallb_vmap2 by (destruct Hv; lia).
    simpl concat. rewrite forallb_app, andb_assoc. auto.
Qed.
Lemma map_repeat {A B} (f : A -> B) x n : map f (repeat x n) = repeat (f x) n.
Proof. induction n; simpl; auto. rewrite IHn; auto. Qed.
Lemma onesv_canon X : onesv X = map (mlane (xw X)) (repeat true (ext X)).
Proof. unfold onesv, setones. rewrite map_repeat. reflexivity. Qed.
Lemma forallb_repeat {A} (f : A -> bool) x n : f x = true -> forallb f (repeat x n) = true.
Proof. intros H. induction n; simpl; auto. rewrite H; auto. Qed.
Lemma existsb_repeat {A} (f : A -> bool) x n : f x = false -> existsb f (repeat x n) = false.
Proof. intros H. induction n; simpl; auto. rewrite H; auto. Qed.
Lemma all_bits X bs : xty_ok X -> length bs = ext X ->
  (movemask X (map (mlane (xw X)) bs) =? fill_bits (ext X * mmbits X))%Z = forallb (fun b => b) bs.
Proof.
  intros HX HL. rewrite movemask_canon by auto. apply eq_true_iff_eq. rewrite Z.eqb_eq, <- HL. apply rep_all.
Qed.
Lemma all_of_truth X m : xty_ok X -> tails_safe X -> shaped X m ->
  x_all_of X m = Ok (forallb (truth X) (elems X m)).
Proof.
  intros HX Hs Hm. unfold x_all_of. pose proof (proj1 Hm) as HL. rewrite <- HL.
  rewrite (for_get_fold m (fun i v result => all_step X (maskone X v (tail_n X i)) result)). cbn [bind].
  rewrite (fold_masked X (maskone X) (all_step X)). rewrite onesv_canon.
  destruct (masked_one HX Hs Hm) as [EC WF].
  destruct (all_fold (repeat true (ext X)) HX WF) as (bs' & E & L & F); [apply repeat_length|].
  rewrite E, all_bits, F, EC, forallb_app, (forallb_repeat _ true), (forallb_repeat (truth X)) by auto using truth_ones.
  rewrite andb_true_r. reflexivity.
Qed.

(** *** any_of, none_of *)
Lemma or_fold X (P : Z -> bool) vs r : xty_ok X -> Forall (wfv X) vs -> wfv X r ->
  (forall a b, word (xw X) a -> word (xw X) b -> P (Z.lor a b) = P a || P b) ->
  let r' := fold_left (fun r v => v_or r v) vs r in
  wfv X r' /\ existsb P r' = existsb P r || existsb P (concat vs).
Proof.
  intros HX H. revert r; induction H as [|v vs Hv Hvs IH]; intros r Hr HP.
  - simpl. rewrite orb_false_r. auto.
  - simpl. assert (Hr' : wfv X (v_or r v)).
    { apply wfv_vmap2; auto. intros. apply word_lor; auto. pose proof (xw_pos _ (proj1 (proj2 HX))). lia. }
    destruct (IH _ Hr' HP) as [W E]. split; auto. rewrite E, existsb_app, orb_assoc. f_equal.
    clear - Hr Hv HP. destruct Hr as [L1 W1], Hv as [L2 W2]. unfold v_or. revert v W2 L2. generalize (ext X) L1. clear L1.
    induction r as [|x r IH]; intros e L1 [|y v] W2 L2; simpl in *; try lia; auto.
    inversion W1; inversion W2; subst. rewrite HP by auto. rewrite (IH ltac:(auto) (length r)) by (auto; lia).
    destruct (P x), (P y), (existsb P r); auto.
Qed.
Definition nz (l : Z) : bool := negb (l =? 0)%Z.
Lemma nz_lor w a b : word w a -> word w b -> nz (Z.lor a b) = nz a || nz b.
Proof.
  unfold word, nz. intros Ha Hb.
  assert (Z.lor a b = 0 <-> a = 0 /\ b = 0)%Z by apply Z.lor_eq_0_iff. lia.
Qed.
Lemma lor_mod k a b : (0 <= k)%Z -> (Z.lor a b mod 2 ^ k = Z.lor (a mod 2 ^ k) (b mod 2 ^ k))%Z.
Proof.
  intros Hk. rewrite <- !Z.land_ones by auto. apply Z.bits_inj'. intros n Hn.
  rewrite !Z.land_spec, !Z.lor_spec, !Z.land_spec. destruct (Z.testbit a n), (Z.testbit b n), (Z.testbit (Z.ones k) n); auto.
Qed.
Lemma word_neg0 w x : (1 <= w)%Z -> word w x ->
  negb (x =? 0)%Z && negb (x =? 2 ^ (w - 1))%Z = negb (x mod 2 ^ (w - 1) =? 0)%Z.
Proof.
  intros Hw Hx. unfold word in Hx. pose proof (pow2_pos (w - 1) ltac:(lia)). rewrite (pow2_pred w) in Hx by lia.
  set (p := (2 ^ (w - 1))%Z) in *. destruct (Z.lt_ge_cases x p).
  - rewrite Z.mod_small by lia. lia.
  - replace (x mod p)%Z with (x - p)%Z by (apply Z.mod_unique with 1%Z; lia). lia.
Qed.
Lemma truth_lor X a b : ety_ok (xT X) -> word (xw X) a -> word (xw X) b -> truth X (Z.lor a b) = truth X a || truth X b.
Proof.
  intros HT Ha Hb. pose proof (xw_pos _ HT). destruct (is_int (xT X)) eqn:E.
  - rewrite !truth_int by auto. eapply nz_lor; eauto.
  - rewrite !truth_float by (auto; apply word_lor; auto; lia). rewrite !word_neg0 by (try apply word_lor; auto; lia).
    rewrite lor_mod by lia. apply (@nz_lor (xw X - 1)); unfold word; apply Z.mod_pos_bound; apply pow2_pos; lia.
Qed.
Definition any_truth (X : xty) : Z -> bool := if sse41 (xc X) then nz else truth X.
Lemma any_test X r : xty_ok X -> wfv X r -> test_mask X (any_fix X r) = existsb (any_truth X) r.
Proof.
  intros HX Hr. unfold any_fix, any_truth, test_mask. pose proof HX as ((_ & Hc & _) & HT & _ & Hv). pose proof (xw_pos _ HT) as Hp.
  destruct (sse41 (xc X)) eqn:Es.
  - rewrite orb_true_r. reflexivity.
  - assert (is256 X = false). { unfold is256. destruct Hv as [->|[_ Ha]]; auto. specialize (Hc Ha); discriminate. }
    rewrite H. simpl orb. rewrite cmp_ne_zero by auto.
    induction r as [|x r IH]; [reflexivity|]. clear IH. destruct Hr as [_ W]. revert W. generalize (x :: r). clear x r.
    intros l W. induction l as [|x l IH]; [reflexivity|]. cbn [map existsb]. inversion W; subst. rewrite IH by auto. f_equal.
    unfold byte_signs. pose proof (esz_cases _ HT) as HS. unfold xw, ew in *.
    destruct (esz (xT X)) as [|k] eqn:Ek; [lia|]. cbn [seq existsb]. rewrite testbit_mlane by lia.
    destruct (truth X x); [reflexivity|]. cbn [orb]. simpl mlane.
    generalize (seq 1 k). intros s. induction s; simpl; auto. rewrite Z.testbit_0_l. auto.
Qed.
Lemma any_mask_spec X m : xty_ok X -> tails_safe X -> shaped X m ->
  exists r, any_mask X m = Ok r /\ wfv X r /\ existsb (any_truth X) r = existsb (any_truth X) (elems X m).
Proof.
  intros HX Hs Hm. pose proof (proj1 Hm) as HL. unfold any_mask. rewrite <- HL.
  rewrite (for_get_fold m (fun i v result => v_or result (maskzero X v (tail_n X i)))).
  rewrite (fold_masked X (maskzero X) (fun v r => v_or r v)).
  destruct (masked_zero HX Hs Hm) as [EC WF].
  destruct (@or_fold X (any_truth X) (masked X (maskzero X) m) (zerov X) HX WF (zerov_wf HX)) as [W E].
  { intros a b Ha Hb. unfold any_truth. destruct (sse41 (xc X)); [eapply nz_lor; eauto|apply truth_lor; auto; apply HX]. }
  eexists; split; [reflexivity|]. split; [exact W|]. rewrite E, EC, existsb_app.
  unfold zerov, setzero. rewrite !existsb_repeat, orb_false_r; auto;
  unfold any_truth; destruct (sse41 (xc X)); auto using truth_zero.
Qed.
Lemma any_of_truth X m : xty_ok X -> tails_safe X -> shaped X m ->
  x_any_of X m = Ok (existsb (any_truth X) (elems X m)) /\ x_none_of X m = Ok (negb (existsb (any_truth X) (elems X m))).
Proof.
  intros HX Hs Hm. destruct (any_mask_spec HX Hs Hm) as (r & E & W & F).
  unfold x_any_of, x_none_of. rewrite E. cbn [bind]. rewrite any_test, F by auto. auto.
Qed.
Lemma some_of_truth X m : xty_ok X -> tails_safe X -> shaped X m ->
  x_some_of X m = Ok (existsb (any_truth X) (elems X m) && negb (forallb (truth X) (elems X m))).
Proof.
  intros HX Hs Hm. pose proof (any_mask_spec HX Hs Hm) as (r & E & W & F).
  pose proof (all_of_truth HX Hs Hm) as Hall. unfold x_all_of in Hall. unfold any_mask in E. unfold x_some_of.
  pose proof (proj1 Hm) as HL. rewrite <- HL in *.
  rewrite (for_get_fold m (fun i v result => all_step X (maskone X v (tail_n X i)) result)) in Hall.
  rewrite (for_get_fold m (fun i v result => v_or result (maskzero X v (tail_n X i)))) in E.
  rewrite (for_get_fold m (fun i v st => (v_or (fst st) (maskzero X v (tail_n X i)), all_step X (maskone X v (tail_n X i)) (snd st)))).
  cbn [bind] in *. inversion E as [E']. inversion Hall as [Hall'].
  assert (G : forall l (a b : vec), fold_left (fun s p =>
     (v_or (fst s) (maskzero X (snd p) (tail_n X (fst p))), all_step X (maskone X (snd p) (tail_n X (fst p))) (snd s))) l (a, b)
     = (fold_left (fun s p => v_or s (maskzero X (snd p) (tail_n X (fst p)))) l a,
        fold_left (fun s p => all_step X (maskone X (snd p) (tail_n X (fst p))) s) l b)).
  { induction l; intros; simpl; auto. }
  rewrite G, E'. rewrite any_test, F by auto. reflexivity.
Qed.

(** *** reduce_count *)
Lemma count_filter (t : Z -> bool) v : count_true (map t v) = length (filter t v).
Proof. unfold count_true. induction v; simpl; auto. destruct (t a); simpl; lia. Qed.
Lemma popcount_ne X v : xty_ok X -> wfv X v ->
  popcount64 (movemask X (cmp_ne X v (zerov X))) = length (filter (truth X) v) * mmbits X.
Proof.
  intros HX Hv. rewrite cmp_ne_zero by auto. rewrite <- (map_map (truth X) (mlane (xw X))).
  rewrite movemask_canon by (auto; rewrite map_length; apply Hv). rewrite popcount_bits.
  - rewrite rep_count, count_filter. auto.
  - rewrite rep_length, map_length. destruct Hv as [-> _]. pose proof (mm_ext HX). lia.
Qed.
Lemma reduce_count_truth X m : xty_ok X -> tails_safe X -> shaped X m ->
  x_reduce_count X m = Ok (length (filter (truth X) (elems X m))).
Proof.
  intros HX Hs Hm. pose proof (proj1 Hm) as HL. unfold x_reduce_count. rewrite <- HL.
  rewrite (for_get_fold m (fun i v r => r + popcount64 (movemask X (cmp_ne X (maskzero X v (tail_n X i)) (zerov X))))).
  cbn [bind]. rewrite (fold_masked X (maskzero X) (fun v r => r + popcount64 (movemask X (cmp_ne X v (zerov X))))).
  destruct (masked_zero HX Hs Hm) as [EC WF].
  assert (G : forall vs s, Forall (wfv X) vs -> fold_left (fun r v => r + popcount64 (movemask X (cmp_ne X v (zerov X)))) vs s
      = s + length (filter (truth X) (concat vs)) * mmbits X).
  { induction vs as [|v vs IH]; intros s W; [simpl; lia|]. inversion W; subst. simpl fold_left. rewrite IH by auto.
    rewrite popcount_ne by auto. simpl concat. rewrite filter_app, app_length. lia. }
  rewrite G, EC, filter_app, app_length by auto.
  assert (Z0 : forall n, filter (truth X) (repeat 0%Z n) = []). { induction n; simpl; auto. rewrite truth_zero; auto. }
  rewrite Z0. simpl (length []). rewrite Nat.add_0_r, Nat.add_0_l, Nat.div_mul; auto.
  destruct (mmbits_cases X); lia.
Qed.

(** *** reduce_min_index *)
Fixpoint idx (P : Z -> bool) (l : list Z) : option nat :=
  match l with [] => None | x :: l' => if P x then Some 0 else option_map S (idx P l') end.
Lemma idx_app P a b : idx P (a ++ b) = match idx P a with Some k => Some k | None => option_map (Nat.add (length a)) (idx P b) end.
Proof.
  induction a as [|x a IH]; simpl.
  - destruct (idx P b); auto.
  - destruct (P x); auto. rewrite IH. destruct (idx P a); simpl; auto. destruct (idx P b); auto.
Qed.
Lemma idx_some P l k : idx P l = Some k <-> (k < length l /\ P (nth k l 0%Z) = true /\ forall j, j < k -> P (nth j l 0%Z) = false).
Proof.
  revert k; induction l as [|x l IH]; intros k; simpl.
  - split; [discriminate|]. intros [H _]; lia.
  - destruct (P x) eqn:E.
    + split.
      * intros H; inversion H; subst. repeat split; auto; lia.
      * intros (_ & H1 & H2). destruct k; auto. specialize (H2 0 ltac:(lia)). simpl in H2. congruence.
    + destruct k as [|k].
      * split; [destruct (idx P l); discriminate|]. intros (_ & H & _). congruence.
      * destruct (idx P l) as [k'|] eqn:Ei; simpl.
        -- split.
           ++ intros H. inversion H; subst. destruct (proj1 (IH k) eq_refl) as (A1 & A2 & A3).
              repeat split; auto; [lia|]. intros [|j] Hj; auto. apply A3; lia.
           ++ intros (H1 & H2 & H3). f_equal. f_equal. assert (Some k' = Some k); [|congruence].
              apply IH. repeat split; auto; [lia|]. intros j Hj. apply (H3 (S j)); lia.
        -- split; [discriminate|]. intros (H1 & H2 & H3). assert (None = Some k); [|discriminate].
           apply IH. repeat split; auto; [lia|]. intros j Hj. apply (H3 (S j)); lia.
Qed.
Lemma idx_none P l : idx P l = None <-> existsb P l = false.
Proof.
  induction l as [|x l IH]; simpl; [tauto|]. destruct (P x); simpl; [split; discriminate|].
  rewrite <- IH. destruct (idx P l); simpl; split; congruence.
Qed.
Lemma ne_bits X v : xty_ok X -> wfv X v ->
  movemask X (cmp_ne X v (zerov X)) = bits_Z (flat_map (rep X) (map (truth X) v)).
Proof.
  intros HX Hv. rewrite cmp_ne_zero by auto. rewrite <- (map_map (truth X) (mlane (xw X))).
  apply movemask_canon; auto. rewrite map_length; apply Hv.
Qed.
Lemma existsb_map_id {A} (t : A -> bool) v : existsb (fun b => b) (map t v) = existsb t v.
Proof. induction v; simpl; auto. rewrite IHv; auto. Qed.
Lemma nth_map_truth X (v : vec) k : k < length v -> nth k (map (truth X) v) false = truth X (nth k v 0%Z).
Proof. intros H. rewrite nth_indep with (d' := truth X 0%Z) by (rewrite map_length; auto). apply map_nth. Qed.
Lemma ctz_ne X v k : xty_ok X -> wfv X v -> idx (truth X) v = Some k ->
  ctz64 (movemask X (cmp_ne X v (zerov X))) / mmbits X = k.
Proof.
  intros HX Hv Hi. rewrite ne_bits by auto. apply idx_some in Hi. destruct Hi as (H1 & H2 & H3).
  assert (Hm : 0 < mmbits X) by (destruct (mmbits_cases X); lia).
  rewrite ctz_bits with (i := k * mmbits X).
  - apply Nat.div_mul; lia.
  - rewrite rep_length, map_length. destruct Hv as [-> _]. pose proof (mm_ext HX). lia.
  - rewrite rep_nth, Nat.div_mul, nth_map_truth by lia. auto.
  - intros j Hj. rewrite rep_nth.
    assert (j / mmbits X < k) by (apply Nat.div_lt_upper_bound; lia).
    rewrite nth_map_truth by lia. auto.
Qed.
Definition min_body (X : xty) (m : list vec) (i : nat) (st : option nat) : res (option nat) :=
  match st with
  | Some _ => Ok st
  | None =>
      v <- get m i;;
      let bits := movemask X (cmp_ne X v (zerov X)) in
      if (bits =? 0)%Z then Ok None else Ok (Some (ctz64 bits / mmbits X + i * ext X))
  end.
Lemma min_loop X m : xty_ok X -> shaped X m ->
  forall m' pre, m = pre ++ m' ->
    (forall k, for_n (length m') (length pre) (min_body X m) (Some k) = Ok (Some k)) /\
    for_n (length m') (length pre) (min_body X m) None
    = Ok (option_map (Nat.add (length pre * ext X)) (idx (truth X) (concat m'))).
Proof.
  intros HX Hm. induction m' as [|v m' IH]; intros pre E; [split; auto|].
  assert (E' : m = (pre ++ [v]) ++ m') by (rewrite E, <- app_assoc; reflexivity).
  destruct (IH (pre ++ [v]) E') as [IH1 IH2].
  assert (EL : length (pre ++ [v]) = S (length pre)) by (rewrite app_length; simpl; lia). rewrite EL in *.
  split.
  - intros k. cbn [length for_n min_body bind]. apply IH1.
  - cbn [length for_n]. unfold min_body at 1.
    assert (G : get m (length pre) = Ok v). { rewrite E, get_app_r by lia. rewrite Nat.sub_diag. apply get_cons_0. }
    rewrite G. cbn [bind]. assert (Wv : wfv X v) by (eapply shaped_get; eauto).
    pose proof (ne_bits HX Wv) as EB. rewrite EB at 1. rewrite bits_Z_0, rep_exists, existsb_map_id.
    cbn [concat]. rewrite idx_app.
    destruct (idx (truth X) v) as [k|] eqn:Ei.
    + assert (existsb (truth X) v = true). { destruct (existsb (truth X) v) eqn:Ex; auto. apply idx_none in Ex. congruence. }
      rewrite H. cbn [negb bind]. rewrite IH1. rewrite (ctz_ne HX Wv Ei). simpl. do 2 f_equal. lia.
    + rewrite (proj1 (idx_none _ _) Ei). cbn [negb bind]. rewrite IH2. destruct Wv as [-> _].
      destruct (idx (truth X) (concat m')); simpl; auto. do 2 f_equal. lia.
Qed.
Lemma min_index_truth X m : xty_ok X -> shaped X m ->
  x_reduce_min_index X m = match idx (truth X) (concat m) with Some i => Ok i | None => UB end.
Proof.
  intros HX Hm. unfold x_reduce_min_index. fold (min_body X m). unfold for_up. rewrite Nat.sub_0_r, <- (proj1 Hm).
  destruct (min_loop HX Hm m [] eq_refl) as [_ H]. simpl length in H. rewrite H. cbn [bind].
  simpl. destruct (idx (truth X) (concat m)); reflexivity.
Qed.

(** *** reduce_max_index *)
Lemma iter_shift_spec k mm b p : word 64 b -> (0 <= p < 64)%Z ->
  Z.testbit (Nat.iter k (fun b => wrap 64 (Z.shiftl b (Z.of_nat mm))) b) p
  = (Z.of_nat (k * mm) <=? p)%Z && Z.testbit b (p - Z.of_nat (k * mm)).
Proof.
  intros Hb. revert p; induction k; intros p Hp.
  - simpl. replace (p - 0)%Z with p by lia. replace (0 <=? p)%Z with true by lia. reflexivity.
  - change (Nat.iter (S k) (fun b => wrap 64 (Z.shiftl b (Z.of_nat mm))) b)
      with (wrap 64 (Z.shiftl (Nat.iter k (fun b => wrap 64 (Z.shiftl b (Z.of_nat mm))) b) (Z.of_nat mm))).
    rewrite wrap_bits by lia. replace (p <? 64)%Z with true by lia. cbn [andb].
    rewrite Z.shiftl_spec by lia. destruct (Z.lt_ge_cases p (Z.of_nat mm)).
    + rewrite Z.testbit_neg_r by lia. replace (Z.of_nat (S k * mm) <=? p)%Z with false by nia. auto.
    + rewrite IHk by lia. f_equal; [nia|]. f_equal. lia.
Qed.
Lemma iter_shift_word k mm b : word 64 b -> word 64 (Nat.iter k (fun b => wrap 64 (Z.shiftl b (Z.of_nat mm))) b).
Proof. intros H. destruct k; [exact H|]. simpl. apply wrap_word; lia. Qed.
Lemma movemask_l_spec X v n p : xty_ok X -> wfv X v -> p < 64 ->
  let n' := Nat.min n (ext X) in
  Z.testbit (movemask_l X (cmp_ne X v (zerov X)) n) (Z.of_nat p)
  = (64 - n' * mmbits X <=? p) && nth (p - (64 - n' * mmbits X)) (flat_map (rep X) (map (truth X) v)) false.
Proof.
  intros HX Hv Hp n'. unfold movemask_l. rewrite ne_bits by auto. set (L := flat_map (rep X) (map (truth X) v)).
  pose proof (mm_ext HX) as Hmm. set (mm := mmbits X) in *. set (e := ext X) in *.
  assert (B : forall q, (0 <= q < 64)%Z -> Z.testbit (wrap 64 (Z.shiftl (bits_Z L) (64 - Z.of_nat (e * mm)))) q
     = (64 - Z.of_nat (e * mm) <=? q)%Z && Z.testbit (bits_Z L) (q - (64 - Z.of_nat (e * mm)))).
  { intros q Hq. rewrite wrap_bits by lia. replace (q <? 64)%Z with true by lia. cbn [andb].
    rewrite Z.shiftl_spec by lia. destruct (Z.leb_spec (64 - Z.of_nat (e * mm)) q); auto.
    rewrite Z.testbit_neg_r by lia. auto. }
  assert (Hw : word 64 (wrap 64 (Z.shiftl (bits_Z L) (64 - Z.of_nat (e * mm))))) by (apply wrap_word; lia).
  destruct (Nat.ltb_spec n e) as [Hn|Hn].
  - replace n' with n by (unfold n'; lia). rewrite iter_shift_spec by (auto; lia).
    assert (n * mm <= e * mm) by nia. assert (Q : ((e - n) * mm = e * mm - n * mm)) by nia. rewrite Q.
    destruct (Z.leb_spec (Z.of_nat (e * mm - n * mm)) (Z.of_nat p)).
    + rewrite B by lia. cbn [andb]. destruct (Nat.leb_spec (64 - n * mm) p).
      * replace (64 - Z.of_nat (e * mm) <=? Z.of_nat p - Z.of_nat (e * mm - n * mm))%Z with true by lia. cbn [andb].
        rewrite <- testbit_bits_Z. f_equal. lia.
      * replace (64 - Z.of_nat (e * mm) <=? Z.of_nat p - Z.of_nat (e * mm - n * mm))%Z with false by lia. auto.
    + replace (64 - n * mm <=? p) with false by lia. auto.
  - replace n' with e by (unfold n'; lia). rewrite B by lia. destruct (Nat.leb_spec (64 - e * mm) p).
    + replace (64 - Z.of_nat (e * mm) <=? Z.of_nat p)%Z with true by lia. cbn [andb].
      rewrite <- testbit_bits_Z. f_equal. lia.
    + replace (64 - Z.of_nat (e * mm) <=? Z.of_nat p)%Z with false by lia. auto.
Qed.
Lemma movemask_l_word X v n : word 64 (movemask_l X v n).
Proof. unfold movemask_l. destruct (n <? ext X); [apply iter_shift_word|]; apply wrap_word; lia. Qed.
Lemma clz_spec x q : q < 64 -> Z.testbit x (Z.of_nat q) = true ->
  (forall p, q < p < 64 -> Z.testbit x (Z.of_nat p) = false) -> clz64 x = 63 - q.
Proof.
  intros Hq Ht Hf. unfold clz64. rewrite find_seq with (i := 63 - q); auto; [lia| |].
  - replace (63 - (63 - q)) with q by lia. auto.
  - intros j Hj. apply Hf. lia.
Qed.
Lemma word_zero_bits x : word 64 x -> (forall p, p < 64 -> Z.testbit x (Z.of_nat p) = false) -> x = 0%Z.
Proof.
  intros Hx H. apply Z.bits_inj'. intros n Hn. rewrite Z.bits_0. destruct (Z.lt_ge_cases n 64).
  - rewrite <- (Z2Nat.id n) by lia. apply H. lia.
  - apply word_bits with (w := 64%Z); auto; lia.
Qed.
(** last index below [n] satisfying P *)
Definition lastP (P : nat -> bool) (n k : nat) : Prop := k < n /\ P k = true /\ forall j, k < j < n -> P j = false.
Lemma lastP_dec P n : (exists k, lastP P n k) \/ (forall k, k < n -> P k = false).
Proof.
  induction n; [right; lia|]. destruct (P n) eqn:E.
  - left. exists n. repeat split; auto; lia.
  - destruct IHn as [(k & H1 & H2 & H3)|H].
    + left. exists k. split; [lia|]. split; auto. intros j Hj. destruct (Nat.eq_dec j n); [subst; auto|]. apply H3. lia.
    + right. intros k Hk. destruct (Nat.eq_dec k n); [subst; auto|]. apply H. lia.
Qed.
Lemma max_vec X v n : xty_ok X -> wfv X v -> 0 < n ->
  let n' := Nat.min n (ext X) in
  let bits := movemask_l X (cmp_ne X v (zerov X)) n in
  (forall k, lastP (fun k => truth X (nth k v 0%Z)) n' k -> (bits =? 0)%Z = false /\ clz64 bits / mmbits X = n' - 1 - k) /\
  ((forall k, k < n' -> truth X (nth k v 0%Z) = false) -> bits = 0%Z).
Proof.
  intros HX Hv Hn n' bits. assert (Hm : 0 < mmbits X) by (destruct (mmbits_cases X); lia).
  pose proof (mm_ext HX) as Hmm. assert (Hn' : n' * mmbits X <= ext X * mmbits X) by (unfold n'; nia).
  assert (SP : forall p, p < 64 -> Z.testbit bits (Z.of_nat p) = (64 - n' * mmbits X <=? p) &&
     truth X (nth ((p - (64 - n' * mmbits X)) / mmbits X) v 0%Z)).
  { intros p Hp. unfold bits. rewrite movemask_l_spec by auto. fold n'. destruct (Nat.leb_spec (64 - n' * mmbits X) p); auto.
    cbn [andb]. rewrite rep_nth, nth_map_truth; auto. destruct Hv as [-> _].
    apply Nat.div_lt_upper_bound; lia. }
  split.
  - intros k (H1 & H2 & H3). set (mm := mmbits X) in *. set (q := 64 - n' * mm + k * mm + (mm - 1)).
    assert (Hkm : k * mm + mm <= n' * mm) by nia.
    assert (Hq : q < 64) by (unfold q; lia).
    assert (TQ : Z.testbit bits (Z.of_nat q) = true).
    { rewrite SP by auto. replace (64 - n' * mm <=? q) with true by (unfold q; lia). cbn [andb].
      replace ((q - (64 - n' * mm)) / mm) with k; auto. symmetry.
      replace (q - (64 - n' * mm)) with (mm - 1 + k * mm) by (unfold q; lia). rewrite Nat.div_add, Nat.div_small by lia. lia. }
    split.
    + destruct (Z.eqb_spec bits 0); auto. rewrite e in TQ. rewrite Z.testbit_0_l in TQ. discriminate.
    + rewrite (@clz_spec bits q); auto.
      * replace (63 - q) with ((n' - 1 - k) * mm). { apply Nat.div_mul; lia. }
        unfold q. replace ((n' - 1 - k) * mm) with (n' * mm - mm - k * mm) by nia. lia.
      * intros p Hp. rewrite SP by lia. replace (64 - n' * mm <=? p) with true by (unfold q in Hp; lia). cbn [andb].
        apply H3. split.
        -- assert (mm + k * mm <= p - (64 - n' * mm)) by (unfold q in Hp; lia).
           apply Nat.div_le_lower_bound; nia.
        -- apply Nat.div_lt_upper_bound; lia.
  - intros H. apply word_zero_bits; [apply movemask_l_word|]. intros p Hp. fold bits. rewrite SP by auto.
    destruct (Nat.leb_spec (64 - n' * mmbits X) p); auto. cbn [andb]. apply H.
    apply Nat.div_lt_upper_bound; lia.
Qed.
Definition max_shift (X : xty) (q : nat) : nat := if q / ext X =? dsz X - 1 then dsz X * ext X - xN X else 0.
Lemma nth_concat X m i v k : xty_ok X -> shaped X m -> get m i = Ok v -> k < ext X ->
  nth (i * ext X + k) (concat m) 0%Z = nth k v 0%Z.
Proof.
  intros HX Hm Hg Hk. assert (Wv : wfv X v) by (eapply shaped_get; eauto).
  assert (i < dsz X) by (apply get_ok_lt in Hg; destruct Hm; lia).
  assert (G : get (concat m) (i * ext X + k) = get v k).
  { rewrite (@get_concat _ m (ext X)); auto using ext_pos, shaped_len.
    replace ((i * ext X + k) / ext X) with i. 2:{ apply Nat.div_unique with k; lia. }
    replace ((i * ext X + k) mod ext X) with k. 2:{ apply Nat.mod_unique with i; lia. }
    rewrite Hg. reflexivity. }
  rewrite (get_nth v k 0%Z) in G by (destruct Wv; lia).
  rewrite (get_nth (concat m) _ 0%Z) in G; [congruence|]. destruct (concat_shaped Hm) as [-> _]. nia.
Qed.
Lemma max_index_truth X m : xty_ok X -> shaped X m ->
  (forall q, lastP (fun q => truth X (nth q (concat m) 0%Z)) (xN X) q -> x_reduce_max_index X m = Ok (q + max_shift X q)) /\
  ((forall q, q < xN X -> truth X (nth q (concat m) 0%Z) = false) -> x_reduce_max_index X m = UB).
Proof.
  intros HX Hm. unfold x_reduce_max_index.
  set (body := fun (k : nat) (st : option nat) => match st with
    | Some _ => Ok st
    | None =>
        let i := dsz X - 1 - k in let j := i + 1 in
        v <- get m i;;
        let bits := movemask_l X (cmp_ne X v (zerov X)) (xN X - i * ext X) in
        if (bits =? 0)%Z then Ok None else Ok (Some (j * ext X - 1 - clz64 bits / mmbits X))
    end).
  set (T := fun q => truth X (nth q (concat m) 0%Z)).
  pose proof (ext_pos HX) as He. pose proof (dsz_spec HX) as (D1 & D2 & D3).
  assert (D4 : dsz X * ext X = (dsz X - 1) * ext X + ext X).
  { replace (dsz X) with (dsz X - 1 + 1) at 1 by lia. rewrite Nat.mul_add_distr_r. lia. }
  destruct (@for_up_inv (option nat) (fun j st => match st with
      | None => forall q, (dsz X - j) * ext X <= q < xN X -> T q = false
      | Some r => exists q, lastP T (xN X) q /\ r = q + max_shift X q
      end) 0 (dsz X) body None) as (st & E & P); [lia| | |].
  - intros q Hq. rewrite Nat.sub_0_r in Hq. lia.
  - intros k st Hk P. destruct st as [r|]; [exists (Some r); auto|]. unfold body. cbv zeta.
    set (i := dsz X - 1 - k).
    assert (K1 : (dsz X - k) * ext X = i * ext X + ext X).
    { replace (dsz X - k) with (i + 1) by (unfold i; lia). rewrite Nat.mul_add_distr_r. lia. }
    assert (K2 : (dsz X - (k + 1)) * ext X = i * ext X) by (f_equal; unfold i; lia).
    assert (K3 : i = dsz X - 1 \/ i * ext X + ext X <= (dsz X - 1) * ext X).
    { destruct (Nat.eq_dec i (dsz X - 1)); auto. right.
      replace (i * ext X + ext X) with ((i + 1) * ext X) by (rewrite Nat.mul_add_distr_r; lia).
      apply Nat.mul_le_mono_r. unfold i in *; lia. }
    assert (K4 : i * ext X <= (dsz X - 1) * ext X) by (destruct K3 as [-> |]; lia).
    destruct (@get_shaped X m i Hm) as (v & Gv & Wv); [unfold i; lia|]. rewrite Gv. cbn [bind]. clearbody i.
    assert (Hn : 0 < xN X - i * ext X) by lia.
    destruct (max_vec HX Wv Hn) as [M1 M2].
    set (n := xN X - i * ext X) in *. set (n' := Nat.min n (ext X)) in *.
    assert (Hn' : n' <= n /\ n' <= ext X /\ (n' = n \/ n' = ext X)) by (unfold n'; lia).
    assert (En : n + i * ext X = xN X) by (unfold n; lia).
    assert (NV : forall k', k' < n' -> nth k' v 0%Z = nth (i * ext X + k') (concat m) 0%Z).
    { intros k' Hk'. symmetry. apply nth_concat; auto. lia. }
    rewrite K1 in P.
    assert (RNG : forall q, i * ext X <= q < xN X -> q < i * ext X + ext X -> q - i * ext X < n') by (intros; lia).
    clearbody n' n. clearbody body. destruct (lastP_dec (fun k => truth X (nth k v 0%Z)) n') as [(k' & Hk')|Hnone].
    + destruct (M1 k' Hk') as [B1 B2]. rewrite B1, B2. eexists; split; [reflexivity|].
      exists (i * ext X + k'). destruct Hk' as (A1 & A2 & A3). split.
      * unfold lastP, T. split; [lia|]. split; [rewrite <- NV; auto|].
        intros q Hq. destruct (Nat.lt_ge_cases q (i * ext X + ext X)) as [Hl|Hl]; [|apply P; lia].
        replace q with (i * ext X + (q - i * ext X)) by lia.
        rewrite <- NV by (apply RNG; lia). apply A3. split; [lia|apply RNG; lia].
      * unfold max_shift. replace ((i * ext X + k') / ext X) with i.
        2:{ apply Nat.div_unique with k'; lia. }
        rewrite Nat.mul_add_distr_r.
        destruct (Nat.eqb_spec i (dsz X - 1)) as [Ei|Ei].
        -- assert (i * ext X = (dsz X - 1) * ext X) by (rewrite Ei; auto). clear - H D1 D2 D4 En Hn' A1 He. lia.
        -- destruct K3 as [K3|K3]; [congruence|]. clear - K3 D1 D2 D4 En Hn' A1 He. lia.
    + rewrite (M2 Hnone). simpl Z.eqb. cbv iota. eexists; split; [reflexivity|]. rewrite K2. intros q Hq.
      destruct (Nat.lt_ge_cases q (i * ext X + ext X)) as [Hl|Hl]; [|apply P; lia]. unfold T.
      replace q with (i * ext X + (q - i * ext X)) by lia.
      rewrite <- NV by (apply RNG; lia). apply Hnone. apply RNG; lia.
  - rewrite E. cbn [bind]. split.
    + intros q (Q1 & Q2 & Q3). destruct st as [r|].
      * destruct P as (q' & (P1 & P2 & P3) & ->). assert (q' = q); [|subst; auto].
        destruct (Nat.lt_trichotomy q q') as [H|[H|H]]; auto; exfalso.
        -- unfold T in *. rewrite Q3 in P2 by lia. discriminate.
        -- unfold T in *. rewrite P3 in Q2 by lia. discriminate.
      * exfalso. unfold T in *. rewrite P in Q2 by lia. discriminate.
    + intros Hn. destruct st as [r|]; auto. destruct P as (q' & (P1 & P2 & P3) & _). unfold T in *. rewrite Hn in P2 by auto. discriminate.
Qed.
