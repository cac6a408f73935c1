(** Lemmas about native vectors and about vectorised loops over them. *)
From Coq Require Import ZifyBool ZifyNat Permutation.
From Verif Require Import Base Cxx Spec Generic GenericProofs X86Vec X86.
Set Implicit Arguments.

(** *** vmap2 / vmap3 *)
Section VM.
Context {A B C D : Type}.
Lemma vmap2_length (f : A -> B -> C) a b : length (vmap2 f a b) = Nat.min (length a) (length b).
Proof. revert b; induction a; intros [|y b]; simpl; auto. Qed.
Lemma vmap2_length_eq (f : A -> B -> C) a b : length a = length b -> length (vmap2 f a b) = length a.
Proof. intros H. rewrite vmap2_length. lia. Qed.
Lemma vmap3_length (f : A -> B -> C -> D) a b c : length a = length b -> length b = length c -> length (vmap3 f a b c) = length a.
Proof. revert b c; induction a; intros [|y b] [|z c]; simpl; intros; try lia. f_equal. apply IHa; lia. Qed.
Lemma get_vmap2 (f : A -> B -> C) a b i : get (vmap2 f a b) i = (x <- get a i;; y <- get b i;; Ok (f x y)).
Proof.
  revert b i; induction a as [|x a IH]; intros [|y b] [|i]; simpl; auto; rewrite ?get_cons_S; try apply IH;
  repeat match goal with |- context [get ?l ?i] => destruct (get l i) eqn:?; cbn [bind]; auto end;
  try (unfold get in *; destruct i; discriminate).
Qed.
Lemma get_vmap3 (f : A -> B -> C -> D) a b c i :
  get (vmap3 f a b c) i = (x <- get a i;; y <- get b i;; z <- get c i;; Ok (f x y z)).
Proof.
  revert b c i; induction a as [|x a IH]; intros [|y b] [|z c] [|i]; simpl; auto;
  rewrite ?get_cons_S; try apply IH;
  repeat match goal with |- context [get ?l ?i] => destruct (get l i) eqn:?; cbn [bind]; auto end;
  try (unfold get in *; destruct i; discriminate).
Qed.
Lemma vmap2_app (f : A -> B -> C) a a' b b' : length a = length b ->
  vmap2 f (a ++ a') (b ++ b') = vmap2 f a b ++ vmap2 f a' b'.
Proof. revert b; induction a; intros [|y b]; simpl; intros; try lia; auto. f_equal. apply IHa; lia. Qed.
Lemma vmap3_app (f : A -> B -> C -> D) a a' b b' c c' : length a = length b -> length b = length c ->
  vmap3 f (a ++ a') (b ++ b') (c ++ c') = vmap3 f a b c ++ vmap3 f a' b' c'.
Proof. revert b c; induction a; intros [|y b] [|z c]; simpl; intros; try lia; auto. f_equal. apply IHa; lia. Qed.
Lemma vmap2_firstn (f : A -> B -> C) n a b : firstn n (vmap2 f a b) = vmap2 f (firstn n a) (firstn n b).
Proof. revert a b; induction n; intros [|x a] [|y b]; simpl; auto. f_equal. apply IHn. Qed.
Lemma vmap3_firstn (f : A -> B -> C -> D) n a b c : firstn n (vmap3 f a b c) = vmap3 f (firstn n a) (firstn n b) (firstn n c).
Proof. revert a b c; induction n; intros [|x a] [|y b] [|z c]; simpl; auto. f_equal. apply IHn. Qed.
Lemma vmap2_ext (f g : A -> B -> C) a b :
  (forall x y, In x a -> In y b -> f x y = g x y) -> vmap2 f a b = vmap2 g a b.
Proof.
  revert b; induction a; intros [|y b] H; simpl; auto. f_equal; [apply H; simpl; auto|].
  apply IHa. intros; apply H; simpl; auto.
Qed.
Lemma vmap3_ext (f g : A -> B -> C -> D) a b c :
  (forall x y z, In x a -> In y b -> In z c -> f x y z = g x y z) -> vmap3 f a b c = vmap3 g a b c.
Proof.
  revert b c; induction a; intros [|y b] [|z c] H; simpl; auto. f_equal; [apply H; simpl; auto|].
  apply IHa. intros; apply H; simpl; auto.
Qed.
Lemma vmap2_Forall (P : C -> Prop) (f : A -> B -> C) a b :
  (forall x y, In x a -> In y b -> P (f x y)) -> Forall P (vmap2 f a b).
Proof.
  revert b; induction a; intros [|y b] H; simpl; auto. constructor; [apply H; simpl; auto|].
  apply IHa. intros; apply H; simpl; auto.
Qed.
Lemma vmap3_Forall (P : D -> Prop) (f : A -> B -> C -> D) a b c :
  (forall x y z, In x a -> In y b -> In z c -> P (f x y z)) -> Forall P (vmap3 f a b c).
Proof.
  revert b c; induction a; intros [|y b] [|z c] H; simpl; auto. constructor; [apply H; simpl; auto|].
  apply IHa. intros; apply H; simpl; auto.
Qed.
End VM.
Lemma vmap2_repeat_r {A B C} (f : A -> B -> C) a y n : length a = n -> vmap2 f a (repeat y n) = map (fun x => f x y) a.
Proof. revert n; induction a; intros [|n]; simpl; intros; try lia; auto. f_equal. apply IHa; lia. Qed.
Lemma vmap2_repeat_l {A B C} (f : A -> B -> C) b x n : length b = n -> vmap2 f (repeat x n) b = map (fun y => f x y) b.
Proof. revert n; induction b; intros [|n]; simpl; intros; try lia; auto. f_equal. apply IHb; lia. Qed.
Lemma vmap2_map {A A' B B' C} (f : A' -> B' -> C) (g : A -> A') (h : B -> B') a b :
  vmap2 f (map g a) (map h b) = vmap2 (fun x y => f (g x) (h y)) a b.
Proof. revert b; induction a; intros [|y b]; simpl; auto. f_equal; auto. Qed.
Lemma map_vmap2 {A B C D} (g : C -> D) (f : A -> B -> C) a b : map g (vmap2 f a b) = vmap2 (fun x y => g (f x y)) a b.
Proof. revert b; induction a; intros [|y b]; simpl; auto. f_equal; auto. Qed.
Lemma vmap2_diag {A B C} (f : A -> B -> C) (g : A -> B) a : vmap2 f a (map g a) = map (fun x => f x (g x)) a.
Proof. induction a; simpl; auto. f_equal; auto. Qed.
Lemma vmap2_map_r {A B B' C} (f : A -> B' -> C) (h : B -> B') a b :
  vmap2 f a (map h b) = vmap2 (fun x y => f x (h y)) a b.
Proof. revert b; induction a; intros [|y b]; simpl; auto. f_equal; auto. Qed.
Lemma vmap2_map_l {A A' B C} (f : A' -> B -> C) (g : A -> A') a b :
  vmap2 f (map g a) b = vmap2 (fun x y => f (g x) y) a b.
Proof. revert b; induction a; intros [|y b]; simpl; auto. f_equal; auto. Qed.
Lemma vmap2_nested {A B C D} (f : A -> C -> D) (g : A -> B -> C) a b :
  vmap2 f a (vmap2 g a b) = vmap2 (fun x y => f x (g x y)) a b.
Proof. revert b; induction a; intros [|y b]; simpl; auto. f_equal; auto. Qed.

(** *** Words *)
Definition words (w : Z) (l : list Z) : Prop := Forall (word w) l.
Lemma words_app w a b : words w (a ++ b) <-> words w a /\ words w b.
Proof. apply Forall_app. Qed.
Lemma words_repeat w x n : word w x -> words w (repeat x n).
Proof. intros. apply Forall_forall. intros y Hy. apply repeat_spec in Hy; subst; auto. Qed.
Lemma words_In w l x : words w l -> In x l -> word w x.
Proof. intros H. apply (proj1 (Forall_forall _ _) H). Qed.
Lemma words_get w l i x : words w l -> get l i = Ok x -> word w x.
Proof. intros H Hg. apply get_ok in Hg. apply nth_error_In in Hg. eapply words_In; eauto. Qed.
Lemma words_firstn w n l : words w l -> words w (firstn n l).
Proof. intros H. rewrite <- (firstn_skipn n l) in H. apply words_app in H. tauto. Qed.
Lemma words_skipn w n l : words w l -> words w (skipn n l).
Proof. intros H. rewrite <- (firstn_skipn n l) in H. apply words_app in H. tauto. Qed.
Lemma word_0 w : (0 <= w)%Z -> word w 0.
Proof. intros. unfold word. pose proof (pow2_pos w). lia. Qed.
Lemma word_ones w : (0 <= w)%Z -> word w (ones w).
Proof. intros. unfold word, ones. pose proof (pow2_pos w). lia. Qed.
Lemma word_mlane w b : (0 <= w)%Z -> word w (mlane w b).
Proof. intros. destruct b; simpl; [apply word_ones|apply word_0]; auto. Qed.

(** *** Types *)
Lemma esz_cases X : ety_ok (xT X) -> esz (xT X) = 1 \/ esz (xT X) = 2 \/ esz (xT X) = 4 \/ esz (xT X) = 8.
Proof. unfold ety_ok. destruct (ek (xT X)); lia. Qed.
Lemma xw_cases X : ety_ok (xT X) -> (xw X = 8 \/ xw X = 16 \/ xw X = 32 \/ xw X = 64)%Z.
Proof. intros H. apply esz_cases in H. unfold xw, ew. lia. Qed.
Lemma xw_pos X : ety_ok (xT X) -> (8 <= xw X)%Z.
Proof. intros H. apply xw_cases in H. lia. Qed.
Lemma ity_of_ok X : ety_ok (xT X) -> ity_ok (ity_of (xT X)).
Proof. intros H. apply xw_cases in H. unfold ity_ok, ity_of; simpl. unfold xw in H. auto. Qed.
Lemma ext_cases X : xty_ok X ->
  ext X = (if is256 X then 32 else 16) / esz (xT X) /\ 2 <= ext X <= 32 /\ Nat.even (ext X) = true.
Proof.
  intros (Hc & HT & HN & Hv). unfold ext, is256. apply esz_cases in HT.
  destruct Hv as [Hv|[Hv _]]; rewrite Hv; simpl Nat.eqb; cbv iota; split; auto;
  destruct HT as [H|[H|[H|H]]]; rewrite H; cbv; lia.
Qed.
Lemma ext_pos X : xty_ok X -> 0 < ext X.
Proof. intros H. destruct (ext_cases H). lia. Qed.
Lemma dsz_spec X : xty_ok X ->
  (dsz X - 1) * ext X < xN X /\ xN X <= dsz X * ext X /\ 0 < dsz X.
Proof.
  intros H. pose proof (ext_pos H) as He. destruct H as (_ & _ & HN & _). assert (0 < xN X) by lia. unfold dsz.
  pose proof (Nat.div_mod (xN X) (ext X) ltac:(lia)) as E.
  pose proof (Nat.mod_upper_bound (xN X) (ext X) ltac:(lia)).
  destruct (Nat.eqb_spec (xN X mod ext X) 0); nia.
Qed.
Lemma dsz_lt X i : xty_ok X -> i < xN X -> i / ext X < dsz X.
Proof.
  intros H Hi. pose proof (ext_pos H). pose proof (dsz_spec H).
  apply Nat.div_lt_upper_bound; lia.
Qed.

(** *** Storage *)
Definition wfv (X : xty) (v : vec) : Prop := length v = ext X /\ words (xw X) v.
Definition shaped (X : xty) (x : list vec) : Prop := length x = dsz X /\ Forall (wfv X) x.
Definition elems (X : xty) (x : list vec) : list Z := firstn (xN X) (concat x).
Definition mask_elems (X : xty) (m : list vec) : list bool := map (fun l => negb (l =? 0)%Z) (elems X m).

Lemma concat_length {A} (x : list (list A)) e : Forall (fun v => length v = e) x -> length (concat x) = length x * e.
Proof. induction 1; simpl; auto. rewrite app_length. lia. Qed.
Lemma shaped_len X x : shaped X x -> Forall (fun v => length v = ext X) x.
Proof. intros [_ H]. eapply Forall_impl; [|exact H]. intros v [Hv _]; auto. Qed.
Lemma concat_shaped X x : shaped X x -> length (concat x) = dsz X * ext X /\ words (xw X) (concat x).
Proof.
  intros H. split.
  - pose proof (@concat_length _ x (ext X) (shaped_len H)) as E. rewrite E. destruct H as [H _]. rewrite H. auto.
  - destruct H as [_ H]. induction H as [|v x Hv Hx IH]; simpl; [constructor|]. apply words_app. destruct Hv; auto.
Qed.
Lemma elems_length X x : xty_ok X -> shaped X x -> length (elems X x) = xN X.
Proof.
  intros HX H. unfold elems. rewrite firstn_length. apply concat_shaped in H. destruct H as [H _].
  pose proof (dsz_spec HX). lia.
Qed.
Lemma elems_words X x : shaped X x -> words (xw X) (elems X x).
Proof. intros H. apply words_firstn. apply concat_shaped; auto. Qed.
Lemma get_concat {A} (x : list (list A)) e i : 0 < e -> Forall (fun v => length v = e) x ->
  get (concat x) i = (v <- get x (i / e);; get v (i mod e)).
Proof.
  intros He H. revert i; induction H as [|v x Hv Hx IH]; intros i.
  - simpl concat. assert (G : forall T k, get (@nil T) k = UB) by (intros; apply get_ub; simpl; lia). rewrite !G. auto.
  - simpl concat. destruct (Nat.lt_ge_cases i e) as [Hi|Hi].
    + rewrite get_app_l by lia. rewrite Nat.div_small, Nat.mod_small by lia. reflexivity.
    + rewrite get_app_r by lia. rewrite Hv, IH.
      assert (E1 : i / e = S ((i - e) / e)).
      { replace i with ((i - e) + 1 * e) at 1 by lia. rewrite Nat.div_add by lia. lia. }
      assert (E2 : i mod e = (i - e) mod e).
      { replace i with ((i - e) + 1 * e) at 1 by lia. rewrite Nat.mod_add by lia. lia. }
      rewrite E1, E2, get_cons_S. reflexivity.
Qed.
Lemma xget_concat X x i : xty_ok X -> shaped X x -> xget X x i = get (concat x) i.
Proof. intros HX H. unfold xget. rewrite (@get_concat _ x (ext X)); auto using ext_pos, shaped_len. Qed.
(** operator[] on an element in range reads that element. *)
Lemma xget_elems X x i : xty_ok X -> shaped X x -> i < xN X -> xget X x i = get (elems X x) i.
Proof. intros HX H Hi. rewrite xget_concat by auto. unfold elems. rewrite get_firstn; auto. Qed.
Lemma get_shaped X x i : shaped X x -> i < dsz X -> exists v, get x i = Ok v /\ wfv X v.
Proof.
  intros [HL H] Hi. destruct (get_lt_ok x i) as [v Hv]; [lia|]. exists v; split; auto.
  apply get_ok in Hv. apply nth_error_In in Hv. apply (proj1 (Forall_forall _ _) H); auto.
Qed.
Lemma shaped_get X x i v : shaped X x -> get x i = Ok v -> wfv X v.
Proof.
  intros [_ H] Hv. apply get_ok in Hv. apply nth_error_In in Hv. apply (proj1 (Forall_forall _ _) H); auto.
Qed.
Lemma zerov_wf X : xty_ok X -> wfv X (zerov X).
Proof.
  intros (_ & HT & _). apply xw_pos in HT. unfold zerov, setzero. split; [apply repeat_length|].
  apply words_repeat, word_0; lia.
Qed.
Lemma onesv_wf X : xty_ok X -> wfv X (onesv X).
Proof.
  intros (_ & HT & _). apply xw_pos in HT. unfold onesv, setones. split; [apply repeat_length|].
  apply words_repeat, word_ones; lia.
Qed.
Lemma repeat_shaped X v : wfv X v -> shaped X (repeat v (dsz X)).
Proof.
  intros H. split; [apply repeat_length|]. apply Forall_forall. intros y Hy. apply repeat_spec in Hy; subst; auto.
Qed.
Lemma zeros_shaped X : xty_ok X -> shaped X (zeros X).
Proof. intros. apply repeat_shaped, zerov_wf; auto. Qed.
Lemma concat_repeat {A} (x : A) n k : concat (repeat (repeat x n) k) = repeat x (k * n).
Proof. induction k; simpl; auto. rewrite IHk, repeat_app. auto. Qed.
Lemma firstn_repeat {A} (x : A) n k : n <= k -> firstn n (repeat x k) = repeat x n.
Proof. revert k; induction n; intros [|k]; simpl; intros; try lia; auto. f_equal. apply IHn; lia. Qed.
Lemma elems_repeat X v : xty_ok X -> elems X (repeat (repeat v (ext X)) (dsz X)) = repeat v (xN X).
Proof.
  intros H. unfold elems. rewrite concat_repeat. apply firstn_repeat. pose proof (dsz_spec H). lia.
Qed.

(** *** The vectorised loops *)
Lemma concat_vmap2 {A B C} (f : A -> B -> C) e x y : length x = length y ->
  Forall (fun v => length v = e) x -> Forall (fun v => length v = e) y ->
  concat (vmap2 (vmap2 f) x y) = vmap2 f (concat x) (concat y).
Proof.
  revert y; induction x as [|u x IH]; intros [|v y]; simpl; intros HL Hx Hy; try lia; auto.
  inversion Hx; inversion Hy; subst. rewrite vmap2_app by lia. f_equal. apply IH; auto.
Qed.
Lemma concat_vmap3 {A B C D} (f : A -> B -> C -> D) e x y z : length x = length y -> length y = length z ->
  Forall (fun v => length v = e) x -> Forall (fun v => length v = e) y -> Forall (fun v => length v = e) z ->
  concat (vmap3 (vmap3 f) x y z) = vmap3 f (concat x) (concat y) (concat z).
Proof.
  revert y z; induction x as [|u x IH]; intros [|v y] [|t z]; simpl; intros HL HL' Hx Hy Hz; try lia; auto.
  inversion Hx; inversion Hy; inversion Hz; subst. rewrite vmap3_app by lia. f_equal. apply IH; auto.
Qed.
Lemma concat_map_map {A B} (f : A -> B) (x : list (list A)) : concat (map (map f) x) = map f (concat x).
Proof. induction x; simpl; auto. rewrite map_app, IHx. auto. Qed.

Lemma fill_result {A} n (f : nat -> res A) r0 r :
  length r0 = n -> length r = n -> (forall i, i < n -> f i = get r i) -> fill n f r0 = Ok r.
Proof.
  intros H0 HL H. apply fill_ok_iff; [lia|]. repeat split; auto; try lia.
  intros i Hi. rewrite !(proj2 (get_ub _ _)); auto; lia.
Qed.
Lemma zeros_length X : length (zeros X) = dsz X.
Proof. apply repeat_length. Qed.

Lemma vz1_spec X f g a : xty_ok X -> shaped X a ->
  (forall v, wfv X v -> f v = Ok (map g v)) -> (forall x, word (xw X) x -> word (xw X) (g x)) ->
  exists r, vz1 X f a = Ok r /\ shaped X r /\ elems X r = map g (elems X a).
Proof.
  intros HX Ha Hf Hg. exists (map (map g) a). split; [|split].
  - apply fill_result; [apply zeros_length|rewrite map_length; apply Ha|].
    intros i Hi. destruct (get_shaped Ha Hi) as (v & Hv & Wv). rewrite Hv; cbn [bind].
    rewrite Hf, get_map, Hv by auto. reflexivity.
  - split; [rewrite map_length; apply Ha|]. apply Forall_map.
    destruct Ha as [_ Ha]. eapply Forall_impl; [|exact Ha]. intros v [HL Hw]. split; [rewrite map_length; auto|].
    apply Forall_map. eapply Forall_impl; [|exact Hw]. auto.
  - unfold elems. rewrite concat_map_map, firstn_map. auto.
Qed.
Lemma vz2_spec X f g a b : xty_ok X -> shaped X a -> shaped X b ->
  (forall u v, wfv X u -> wfv X v -> f u v = Ok (vmap2 g u v)) ->
  (forall x y, word (xw X) x -> word (xw X) y -> word (xw X) (g x y)) ->
  exists r, vz2 X f a b = Ok r /\ shaped X r /\ elems X r = vmap2 g (elems X a) (elems X b).
Proof.
  intros HX Ha Hb Hf Hg. exists (vmap2 (vmap2 g) a b).
  assert (HL : length (vmap2 (vmap2 g) a b) = dsz X).
  { rewrite vmap2_length. destruct Ha, Hb. lia. }
  split; [|split].
  - apply fill_result; [apply zeros_length|auto|].
    intros i Hi. destruct (get_shaped Ha Hi) as (u & Hu & Wu). destruct (get_shaped Hb Hi) as (v & Hv & Wv).
    rewrite get_vmap2, Hu, Hv; cbn [bind]. apply Hf; auto.
  - split; auto. apply vmap2_Forall. intros u v Hu Hv.
    pose proof (proj1 (Forall_forall _ _) (proj2 Ha) _ Hu) as [L1 W1].
    pose proof (proj1 (Forall_forall _ _) (proj2 Hb) _ Hv) as [L2 W2].
    split; [rewrite vmap2_length; lia|]. apply vmap2_Forall. intros x y Hx Hy.
    apply Hg; [exact (words_In _ W1 Hx)|exact (words_In _ W2 Hy)].
  - unfold elems. rewrite (@concat_vmap2 _ _ _ g (ext X)), vmap2_firstn; auto using shaped_len.
    destruct Ha, Hb; congruence.
Qed.
Lemma vz3_spec X f g a b c : xty_ok X -> shaped X a -> shaped X b -> shaped X c ->
  (forall u v t, wfv X u -> wfv X v -> wfv X t -> f u v t = Ok (vmap3 g u v t)) ->
  (forall x y z, word (xw X) x -> word (xw X) y -> word (xw X) z -> word (xw X) (g x y z)) ->
  exists r, vz3 X f a b c = Ok r /\ shaped X r /\ elems X r = vmap3 g (elems X a) (elems X b) (elems X c).
Proof.
  intros HX Ha Hb Hc Hf Hg. exists (vmap3 (vmap3 g) a b c).
  assert (HL : length (vmap3 (vmap3 g) a b c) = dsz X).
  { rewrite vmap3_length; destruct Ha, Hb, Hc; congruence. }
  split; [|split].
  - apply fill_result; [apply zeros_length|auto|].
    intros i Hi. destruct (get_shaped Ha Hi) as (u & Hu & Wu). destruct (get_shaped Hb Hi) as (v & Hv & Wv).
    destruct (get_shaped Hc Hi) as (t & Ht & Wt).
    rewrite get_vmap3, Hu, Hv, Ht; cbn [bind]. apply Hf; auto.
  - split; auto. apply vmap3_Forall. intros u v t Hu Hv Ht.
    pose proof (proj1 (Forall_forall _ _) (proj2 Ha) _ Hu) as [L1 W1].
    pose proof (proj1 (Forall_forall _ _) (proj2 Hb) _ Hv) as [L2 W2].
    pose proof (proj1 (Forall_forall _ _) (proj2 Hc) _ Ht) as [L3 W3].
    split; [rewrite vmap3_length; congruence|]. apply vmap3_Forall. intros x y z Hx Hy Hz.
    apply Hg; [exact (words_In _ W1 Hx)|exact (words_In _ W2 Hy)|exact (words_In _ W3 Hz)].
  - unfold elems. rewrite (@concat_vmap3 _ _ _ _ g (ext X)), vmap3_firstn; auto using shaped_len.
    + destruct Ha, Hb; congruence.
    + destruct Hb, Hc; congruence.
Qed.

(** *** Halves *)
Lemma halves x : lo_half x ++ hi_half x = x.
Proof. apply firstn_skipn. Qed.
Lemma half_len (x y : vec) : length x = length y ->
  length (lo_half x) = length (lo_half y) /\ length (hi_half x) = length (hi_half y).
Proof. unfold lo_half, hi_half. intros H. rewrite !firstn_length, !skipn_length, H. auto. Qed.
Lemma mux1_map f x : mux1 (map f) x = map f x.
Proof. unfold mux1. rewrite <- map_app, halves. auto. Qed.
Lemma mux2_vmap2 f x y : length x = length y -> mux2 (vmap2 f) x y = vmap2 f x y.
Proof.
  intros H. unfold mux2. rewrite <- vmap2_app by (apply half_len; auto). rewrite !halves. auto.
Qed.
Lemma mux3_vmap3 f x y z : length x = length y -> length y = length z -> mux3 (vmap3 f) x y z = vmap3 f x y z.
Proof.
  intros H H'. unfold mux3. rewrite <- vmap3_app by (apply half_len; auto). rewrite !halves. auto.
Qed.
Lemma mux2_eq (f g : vec -> vec -> vec) x y :
  f (lo_half x) (lo_half y) = g (lo_half x) (lo_half y) -> f (hi_half x) (hi_half y) = g (hi_half x) (hi_half y) ->
  mux2 f x y = mux2 g x y.
Proof. unfold mux2; congruence. Qed.
Lemma words_half w x : words w x -> words w (lo_half x) /\ words w (hi_half x).
Proof. split; [apply words_firstn|apply words_skipn]; auto. Qed.
Lemma even_half (x : vec) k : length x = k + k -> length (lo_half x) = k /\ length (hi_half x) = k.
Proof.
  intros H. unfold lo_half, hi_half. rewrite firstn_length, skipn_length, H.
  replace (k + k) with (k * 2) by lia. rewrite Nat.div_mul by lia. lia.
Qed.
