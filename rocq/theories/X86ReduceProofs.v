(** Proofs about the horizontal reductions of the x86 backend. *)
From Coq Require Import ZifyBool ZifyNat Permutation.
From Verif Require Import Base Cxx Spec Generic GenericProofs X86Vec X86 X86Lemmas X86Proofs X86Ops X86Mem X86Reduce.
Set Implicit Arguments.

(** *** Generalised sums *)
Definition total {A} (f : A -> A -> A) (a b : A) : res A := Ok (f a b).
Lemma gsum_perm {A} (op : A -> A -> res A) l l' r : Permutation l l' -> gsum op l r -> gsum op l' r.
Proof.
  intros HP H. destruct H as [x|l l1 l2 x y z HP' H1 H2 E].
  - apply Permutation_length_1_inv in HP. subst. constructor.
  - apply (@gsum_split _ op l' l1 l2 x y z); auto. transitivity l; auto using Permutation_sym.
Qed.
Lemma gsum_f2 {A} (f : A -> A -> A) l1 l2 x y : gsum (total f) l1 x -> gsum (total f) l2 y -> gsum (total f) (l1 ++ l2) (f x y).
Proof. intros. apply (@gsum_app _ (total f) l1 l2 x y); auto. Qed.
Lemma gsum_nonempty {A} (op : A -> A -> res A) l r : gsum op l r -> l <> [].
Proof.
  induction 1 as [|l l1 l2 x y z HP H1 IH1]; [discriminate|]. intros E; subst. apply Permutation_nil in HP.
  destruct l1; [auto|discriminate].
Qed.
Lemma concat_perm {A} (l l' : list (list A)) : Permutation l l' -> Permutation (concat l) (concat l').
Proof.
  induction 1; simpl; auto.
  - apply Permutation_app_head; auto.
  - rewrite !app_assoc. apply Permutation_app_tail. apply Permutation_app_comm.
  - etransitivity; eauto.
Qed.
Lemma Forall2_flip {A B} (R : A -> B -> Prop) l l' : Forall2 R l l' -> Forall2 (fun b a => R a b) l' l.
Proof. induction 1; constructor; auto. Qed.
Lemma Forall2_length {A B} (R : A -> B -> Prop) l l' : Forall2 R l l' -> length l = length l'.
Proof. induction 1; simpl; congruence. Qed.
Lemma get_rep {A} (x : A) n k : k < n -> get (repeat x n) k = Ok x.
Proof.
  intros H. destruct (get_lt_ok (repeat x n) k) as [v Hv]; [rewrite repeat_length; auto|]. rewrite Hv. f_equal.
  apply get_ok, nth_error_In, repeat_spec in Hv. auto.
Qed.
(** A sum of sums is a sum. *)
Lemma gsum_subst {A} (op : A -> A -> res A) v r : gsum op v r -> forall cs, Forall2 (gsum op) cs v -> gsum op (concat cs) r.
Proof.
  induction 1 as [x|l l1 l2 x y z HP H1 IH1 H2 IH2 E]; intros cs HF.
  - inversion HF as [|c ? cs' ? Hc HF']; subst. inversion HF'; subst. simpl. rewrite app_nil_r. auto.
  - apply Forall2_flip in HF. destruct (Permutation_Forall2 HP HF) as (cs' & HP' & HF').
    apply Forall2_app_inv_l in HF'. destruct HF' as (c1 & c2 & F1 & F2 & ->).
    apply (@gsum_split _ op _ (concat c1) (concat c2) x y z); auto.
    + rewrite <- concat_app. apply concat_perm; auto.
    + apply IH1. apply Forall2_flip; auto.
    + apply IH2. apply Forall2_flip; auto.
Qed.
Lemma perm_split {A} (l1 : list A) : forall l2 a b, Permutation (l1 ++ l2) (a ++ b) ->
  exists a1 b1 a2 b2, Permutation l1 (a1 ++ b1) /\ Permutation l2 (a2 ++ b2) /\ Permutation a (a1 ++ a2) /\ Permutation b (b1 ++ b2).
Proof.
  induction l1 as [|x l1 IH]; intros l2 a b H.
  - exists [], [], a, b. simpl in *. auto.
  - assert (Hin : In x (a ++ b)) by (apply (Permutation_in _ H); left; auto).
    apply in_app_or in Hin. destruct Hin as [Hin|Hin]; apply in_split in Hin; destruct Hin as (u & v & ->).
    + assert (H' : Permutation (l1 ++ l2) ((u ++ v) ++ b)).
      { apply Permutation_cons_inv with x. etransitivity; [exact H|]. rewrite <- !app_assoc. simpl. symmetry. apply Permutation_middle. }
      destruct (IH _ _ _ H') as (a1 & b1 & a2 & b2 & P1 & P2 & P3 & P4).
      exists (x :: a1), b1, a2, b2. repeat split; auto.
      * simpl. auto.
      * simpl. transitivity (x :: u ++ v); [symmetry; apply Permutation_middle|auto].
    + assert (H' : Permutation (l1 ++ l2) (a ++ (u ++ v))).
      { apply Permutation_cons_inv with x. etransitivity; [exact H|]. rewrite !app_assoc. symmetry. apply Permutation_middle. }
      destruct (IH _ _ _ H') as (a1 & b1 & a2 & b2 & P1 & P2 & P3 & P4).
      exists a1, (x :: b1), a2, b2. repeat split; auto.
      * simpl. transitivity (x :: a1 ++ b1); [constructor; exact P1|apply Permutation_middle].
      * simpl. transitivity (x :: u ++ v); [symmetry; apply Permutation_middle|auto].
Qed.
Lemma perm_repeat {A} (e : A) k l : Permutation (repeat e k) l -> l = repeat e (length l).
Proof.
  intros H. assert (HF : forall x, In x l -> x = e).
  { intros x Hx. apply (@repeat_spec _ k). eapply Permutation_in; [symmetry; exact H|auto]. }
  clear H. induction l as [|x l IH]; simpl; auto. rewrite <- IH by (intros; apply HF; right; auto).
  f_equal. apply HF. left; auto.
Qed.
(** Identity elements do not change a sum. *)
Lemma gsum_pad {A} (f : A -> A -> A) (P : A -> Prop) (e : A) :
  (forall x, P x -> f x e = x) -> (forall x, P x -> f e x = x) -> f e e = e -> (forall x y, P x -> P y -> P (f x y)) ->
  forall L r, gsum (total f) L r -> forall l k, Permutation L (l ++ repeat e k) -> Forall P l ->
  (l = [] -> r = e) /\ (l <> [] -> gsum (total f) l r /\ P r).
Proof.
  intros Hr Hl Hee Hc L r H. induction H as [x|L l1 l2 x y z HP H1 IH1 H2 IH2 E]; intros l k HP' HF.
  - assert (HL : length (l ++ repeat e k) = 1) by (rewrite <- (Permutation_length HP'); auto).
    rewrite app_length, repeat_length in HL. apply Permutation_length_1_inv in HP'.
    destruct l as [|a l]; simpl in *.
    + split; [intros _|congruence]. destruct k; simpl in *; congruence.
    + split; [discriminate|intros _]. inversion HP'; subst. destruct l; [|simpl in *; lia]. inversion HF; subst. split; [constructor|auto].
  - assert (HQ : Permutation (l1 ++ l2) (l ++ repeat e k)) by (transitivity L; auto using Permutation_sym).
    destruct (perm_split _ _ _ _ HQ) as (a1 & b1 & a2 & b2 & P1 & P2 & P3 & P4).
    assert (B1 : b1 = repeat e (length b1) /\ b2 = repeat e (length b2)).
    { assert (forall u, In u (b1 ++ b2) -> u = e).
      { intros u Hu. apply (@repeat_spec _ k). eapply Permutation_in; [symmetry; exact P4|auto]. }
      split.
      - apply (@perm_repeat _ e (length b1)). clear - H. induction b1 as [|u b1 IH]; simpl; auto.
        rewrite (H u) by (left; auto). constructor. apply IH. intros; apply H; right; auto.
      - apply (@perm_repeat _ e (length b2)).
        assert (Hb : forall u, In u b2 -> u = e) by (intros; apply H, in_or_app; auto). clear - Hb.
        induction b2 as [|u b2 IH]; simpl; auto. rewrite (Hb u) by (left; auto). constructor. apply IH. intros; apply Hb; right; auto. }
    destruct B1 as [B1 B2]. rewrite B1 in P1. rewrite B2 in P2.
    assert (HF' : Forall P (a1 ++ a2)) by (eapply Permutation_Forall; eauto).
    apply Forall_app in HF'. destruct HF' as [F1 F2].
    destruct (IH1 _ _ P1 F1) as [I1 J1]. destruct (IH2 _ _ P2 F2) as [I2 J2].
    unfold total in E. injection E as <-.
    destruct a1 as [|u1 a1], a2 as [|u2 a2].
    + apply Permutation_sym, Permutation_nil in P3. subst l. rewrite I1, I2 by auto. split; [auto|congruence].
    + simpl in P3. destruct (J2 ltac:(discriminate)) as [G2 Q2]. rewrite I1, Hl by auto. split.
      * intros ->. apply Permutation_nil in P3. discriminate.
      * intros _. split; auto. eapply gsum_perm; [symmetry; exact P3|auto].
    + rewrite app_nil_r in P3. destruct (J1 ltac:(discriminate)) as [G1 Q1]. rewrite I2, Hr by auto. split.
      * intros ->. apply Permutation_nil in P3. discriminate.
      * intros _. split; auto. eapply gsum_perm; [symmetry; exact P3|auto].
    + destruct (J1 ltac:(discriminate)) as [G1 Q1]. destruct (J2 ltac:(discriminate)) as [G2 Q2]. split.
      * intros ->. apply Permutation_nil in P3. discriminate.
      * intros _. split; auto. eapply gsum_perm; [symmetry; exact P3|]. apply gsum_f2; auto.
Qed.
Lemma gsum_closed {A} (f : A -> A -> A) (P : A -> Prop) l r : (forall x y, P x -> P y -> P (f x y)) ->
  gsum (total f) l r -> Forall P l -> P r.
Proof.
  intros Hc H. induction H as [x|l l1 l2 x y z HP H1 IH1 H2 IH2 E]; intros HF.
  - inversion HF; auto.
  - assert (HF' : Forall P (l1 ++ l2)) by (eapply Permutation_Forall; eauto). apply Forall_app in HF'. destruct HF'.
    injection E as <-. auto.
Qed.
(** For an associative, commutative operation with identity, a sum is the fold. *)
Lemma gsum_fold {A} (f : A -> A -> A) (P : A -> Prop) (e : A) : P e -> (forall x y, P x -> P y -> P (f x y)) ->
  (forall x, P x -> f x e = x) -> (forall x, P x -> f e x = x) ->
  (forall x y, P x -> P y -> f x y = f y x) -> (forall x y z, P x -> P y -> P z -> f (f x y) z = f x (f y z)) ->
  forall l r, gsum (total f) l r -> Forall P l -> r = fold_right f e l.
Proof.
  intros He Hc Hr Hl Hcomm Has.
  assert (HPf : forall l, Forall P l -> P (fold_right f e l)) by (induction 1; simpl; auto).
  assert (Happ : forall a b, Forall P a -> Forall P b -> fold_right f e (a ++ b) = f (fold_right f e a) (fold_right f e b)).
  { induction a as [|x a IH]; simpl; intros b HA HB; [rewrite Hl; auto|]. inversion HA; subst. rewrite IH, Has; auto. }
  assert (Hperm : forall a b, Permutation a b -> Forall P a -> fold_right f e a = fold_right f e b).
  { induction 1 as [|x a b HP IH|x y a|a b c H1 IH1 H2 IH2]; simpl; intros HF; auto.
    - inversion HF; subst. f_equal; auto.
    - inversion HF as [|? ? Px HF1]; inversion HF1 as [|? ? Py HF2]; subst.
      rewrite <- !Has by auto. f_equal. auto.
    - rewrite IH1 by auto. apply IH2. eapply Permutation_Forall; eauto. }
  induction 1 as [x|l l1 l2 x y z HP H1 IH1 H2 IH2 E]; intros HF.
  - inversion HF; subst. simpl. rewrite Hr; auto.
  - assert (HF' : Forall P (l1 ++ l2)) by (eapply Permutation_Forall; eauto).
    apply Forall_app in HF' as HF''. destruct HF'' as [F1 F2]. unfold total in E; injection E as <-.
    rewrite (Hperm _ _ HP HF), Happ, <- IH1, <- IH2 by auto. auto.
Qed.

(** *** One register *)
Ltac fw := first [reflexivity | cbn [pick map nth vmap2]; repeat first [apply Forall_nil | apply Forall_cons; [solve [auto 10]|]]].
Ltac gtree := repeat first [apply gsum_f2 | apply gsum_one].
Ltac perm_find x m k :=
  lazymatch m with
  | x :: ?m2 => k (@nil Z) m2
  | ?y :: ?m' => perm_find x m' ltac:(fun a b => k (y :: a) b)
  end.
Ltac perm_solve :=
  cbn [app];
  repeat lazymatch goal with
  | |- Permutation [] [] => apply Permutation_refl
  | |- Permutation (?x :: ?l) ?m =>
      perm_find x m ltac:(fun a b => apply (@Permutation_cons_app Z l a b x); cbn [app])
  end.

Section H.
Context (X : xty) (HX : xty_ok X) (op : vec -> vec -> vec) (f : Z -> Z -> Z).
Let w := xw X.
Context (Hop : forall u v, wfv X u -> wfv X v -> op u v = vmap2 f u v).
Context (Hf : forall x y, word w x -> word w y -> word w (f x y)).

Lemma hreduce_gsum v : reduce_compiles X = true -> red_as128 X = false -> wfv X v ->
  gsum (total f) v (hreduce X op v).
Proof.
  intros Hc H128 Hv. pose proof HX as (_ & HT & _). apply esz_cases in HT as HS.
  pose proof (xw_pos _ HT) as Hw0. pose proof Hv as [HL HW]. unfold words in HW. fold w in HW.
  assert (W0 : word w 0) by (apply word_0; unfold w; lia).
  assert (Hop' : forall u u', length u = ext X -> length u' = ext X -> Forall (word w) u -> Forall (word w) u' -> op u u' = vmap2 f u u').
  { intros. apply Hop; split; auto. }
  unfold ext, xw in *. unfold hreduce, reduce_compiles, red_as128 in *.
  destruct (is256 X) eqn:E256.
  - unfold is256 in E256. apply Nat.eqb_eq in E256. rewrite E256 in *.
    simpl in H128. rewrite negb_false_iff in H128. rewrite H128 in Hc.
    destruct HS as [E|[E|[E|E]]]; rewrite E in Hc; simpl in Hc; try discriminate; rewrite E in *; cbn [Nat.eqb]; cbv zeta.
    + change (32 / 4) with 8 in *. do 9 (destruct v as [|? v]; try (cbn in HL; lia)).
      repeat (match goal with HH : Forall (word w) (_ :: _) |- _ => inversion HH; clear HH; subst end).
      unfold permute2f128_81, hi_half. cbn [length Nat.div Nat.divmod fst skipn repeat app].
      match goal with |- context [op (?x :: ?l) ?b] => rewrite (Hop' (x :: l) b) by fw end. cbn [vmap2 pick map nth].
      match goal with |- context [op (?x :: ?l) ?b] => rewrite (Hop' (x :: l) b) by fw end. cbn [vmap2 pick map nth].
      match goal with |- context [op (?x :: ?l) ?b] => rewrite (Hop' (x :: l) b) by fw end. cbn [vmap2 pick map nth].
      eapply gsum_perm; [|gtree]. perm_solve.
    + change (32 / 8) with 4 in *. do 5 (destruct v as [|? v]; try (cbn in HL; lia)).
      repeat (match goal with HH : Forall (word w) (_ :: _) |- _ => inversion HH; clear HH; subst end).
      unfold permute2f128_81, hi_half. cbn [length Nat.div Nat.divmod fst skipn repeat app].
      match goal with |- context [op (?x :: ?l) ?b] => rewrite (Hop' (x :: l) b) by fw end. cbn [vmap2 pick map nth].
      match goal with |- context [op (?x :: ?l) ?b] => rewrite (Hop' (x :: l) b) by fw end. cbn [vmap2 pick map nth].
      eapply gsum_perm; [|gtree]. perm_solve.
  - assert (Ev : xvs X = 16).
    { destruct HX as (_ & _ & _ & [Ev|[Ev _]]); auto. unfold is256 in E256. rewrite Ev in E256. discriminate. }
    rewrite Ev in *.
    destruct HS as [E|[E|[E|E]]]; rewrite E in *; cbn [Nat.eqb]; cbv zeta.
    + change (16 / 1) with 16 in *. do 17 (destruct v as [|? v]; try (cbn in HL; lia)).
      repeat (match goal with HH : Forall (word w) (_ :: _) |- _ => inversion HH; clear HH; subst end).
      unfold shuffle_epi8, sel8, sel4, sel2, sel1. cbn [Nat.eqb seq app repeat concat].
      assert (Hw : forall x, word w x -> wrap 8 x = x).
      { intros x Hx. apply Z.mod_small. unfold word, w, xw, ew in Hx. rewrite E in Hx. exact Hx. }
      match goal with |- context [op (?x :: ?l) ?b] => rewrite (Hop' (x :: l) b) by fw end. cbn [vmap2 pick map nth].
      match goal with |- context [op (?x :: ?l) ?b] => rewrite (Hop' (x :: l) b) by fw end. cbn [vmap2 pick map nth].
      match goal with |- context [op (?x :: ?l) ?b] => rewrite (Hop' (x :: l) b) by fw end. cbn [vmap2 pick map nth].
      match goal with |- context [op (?x :: ?l) ?b] => rewrite (Hop' (x :: l) b) by fw end. cbn [vmap2 pick map nth].
      rewrite Hw by auto 7.
      eapply gsum_perm; [|gtree]. perm_solve.
    + change (16 / 2) with 8 in *. do 9 (destruct v as [|? v]; try (cbn in HL; lia)).
      repeat (match goal with HH : Forall (word w) (_ :: _) |- _ => inversion HH; clear HH; subst end).
      unfold shuffle_epi8, sel8, sel4, sel2. cbn [Nat.eqb seq app repeat concat].
      assert (Hw : forall x, word w x -> wrap 16 x = x).
      { intros x Hx. apply Z.mod_small. unfold word, w, xw, ew in Hx. rewrite E in Hx. exact Hx. }
      assert (Hj : forall x, (x mod 2 ^ 8 + 2 ^ 8 * (x / 2 ^ 8) = x)%Z) by (intros; pose proof (Z.div_mod x (2 ^ 8)); lia).
      cbn [split2 pick map nth join2]. rewrite !Hj.
      match goal with |- context [op (?x :: ?l) ?b] => rewrite (Hop' (x :: l) b) by fw end. cbn [vmap2 split2 pick map nth join2]. rewrite !Hj.
      match goal with |- context [op (?x :: ?l) ?b] => rewrite (Hop' (x :: l) b) by fw end. cbn [vmap2 split2 pick map nth join2]. rewrite !Hj.
      match goal with |- context [op (?x :: ?l) ?b] => rewrite (Hop' (x :: l) b) by fw end. cbn [vmap2 split2 pick map nth join2]. 
      rewrite Hw by auto 7.
      eapply gsum_perm; [|gtree]. perm_solve.
    + change (16 / 4) with 4 in *. do 5 (destruct v as [|? v]; try (cbn in HL; lia)).
      repeat (match goal with HH : Forall (word w) (_ :: _) |- _ => inversion HH; clear HH; subst end).
      unfold movehl. cbn [pick map nth].
      match goal with |- context [op (?x :: ?l) ?b] => rewrite (Hop' (x :: l) b) by fw end. cbn [vmap2 pick map nth].
      match goal with |- context [op (?x :: ?l) ?b] => rewrite (Hop' (x :: l) b) by fw end. cbn [vmap2 pick map nth].
      eapply gsum_perm; [|gtree]. perm_solve.
    + change (16 / 8) with 2 in *. do 3 (destruct v as [|? v]; try (cbn in HL; lia)).
      repeat (match goal with HH : Forall (word w) (_ :: _) |- _ => inversion HH; clear HH; subst end).
      cbn [pick map nth].
      match goal with |- context [op (?x :: ?l) ?b] => rewrite (Hop' (x :: l) b) by fw end. cbn [vmap2 pick map nth].
      eapply gsum_perm; [|gtree]. perm_solve.
Qed.

(** *** The vertical loop *)
Lemma columns_snoc (cs : list (list Z)) (v : vec) : length cs = length v ->
  Permutation (concat (vmap2 (fun c x => c ++ [x]) cs v)) (concat cs ++ v).
Proof.
  revert v; induction cs as [|c cs IH]; intros [|x v] H; simpl in *; try lia; auto.
  rewrite <- !app_assoc. apply Permutation_app_head. simpl.
  transitivity (x :: (concat cs ++ v)); [constructor; apply IH; lia|apply Permutation_middle].
Qed.
Lemma columns_gsum cs r v : Forall2 (gsum (total f)) cs r -> length r = length v ->
  Forall2 (gsum (total f)) (vmap2 (fun c x => c ++ [x]) cs v) (vmap2 f r v).
Proof.
  intros H. revert v; induction H as [|c x cs r Hc HF IH]; intros [|y v] HL; simpl in *; try lia; constructor.
  - apply gsum_f2; auto. constructor.
  - apply IH. lia.
Qed.
Definition masked (idt : Z) (j : nat) (v : vec) : vec :=
  if xN X <? j * ext X + ext X then sel (xN X - j * ext X) v (repeat idt (ext X)) else v.
Lemma vreduce_gsum idt data : red_as128 X = false -> word w idt -> dsz X <= length data -> Forall (wfv X) data ->
  exists r cs, vreduce X op (repeat idt (ext X)) data = Ok (Some r) /\ wfv X r /\ Forall2 (gsum (total f)) cs r /\
    Permutation (concat cs) (concat (map (fun j => masked idt j (nth j data [])) (seq 0 (dsz X)))).
Proof.
  intros H128 Hidt HL HW. pose proof (dsz_spec HX) as (D1 & D2 & D3).
  assert (Widt : wfv X (repeat idt (ext X))) by (split; [apply repeat_length|apply words_repeat; exact Hidt]).
  assert (HS : forall n, tail_safe X n).
  { intros n. unfold tail_safe, red_as128 in *. destruct (is256 X); auto. destruct (avx2 (xc X)); auto. }
  assert (HG : forall j, j < dsz X -> wfv X (nth j data [])).
  { intros j Hj. apply (proj1 (Forall_forall _ _) HW). apply nth_In. lia. }
  assert (HM : forall j, j < dsz X -> wfv X (masked idt j (nth j data []))).
  { intros j Hj. destruct (HG j Hj) as [L W]. destruct Widt as [L' W']. unfold masked. destruct (_ <? _); [|split; auto].
    split; [rewrite sel_length; congruence|]. unfold sel. apply words_app. split; [apply words_firstn|apply words_skipn]; auto. }
  set (body := fun j st =>
    let i := j * ext X in
    v <- get data j;;
    let v := if xN X <? i + ext X then maskblend X v (repeat idt (ext X)) (Z.of_nat (xN X) - Z.of_nat i) else v in
    Ok (Some (match st with None => v | Some r => op r v end))).
  set (P := fun j (st : option vec) =>
    match st with
    | None => j = 0
    | Some r => 0 < j /\ wfv X r /\ exists cs, Forall2 (gsum (total f)) cs r /\
        Permutation (concat cs) (concat (map (fun j => masked idt j (nth j data [])) (seq 0 j)))
    end).
  destruct (for_up_inv P 0 (dsz X) body None) as (st & E & HP).
  - lia.
  - simpl. auto.
  - intros j st [_ Hj] HP. unfold body. destruct (get_lt_ok data j) as [v Hv]; [lia|]. rewrite Hv. cbn [bind]. cbv zeta.
    assert (Ev : v = nth j data []).
    { apply get_ok in Hv. symmetry. apply nth_error_nth; auto. }
    set (v' := if xN X <? j * ext X + ext X then _ else v).
    assert (Ev' : v' = masked idt j (nth j data [])).
    { unfold v', masked. rewrite <- Ev. destruct (Nat.ltb_spec (xN X) (j * ext X + ext X)) as [Hlt|_]; auto.
      pose proof HX as (_ & _ & HN & _).
      rewrite maskblend_sel; auto; [f_equal; lia|subst v; apply HG; auto|nia]. }
    rewrite Ev'. eexists; split; [reflexivity|]. pose proof (HM j Hj) as WM. unfold P.
    destruct st as [r|].
    + destruct HP as (Hj0 & Wr & cs & HF & HPm). split; [lia|].
      rewrite Hop by auto. pose proof Wr as [Lr _]. pose proof WM as [Lm _]. split.
      * apply wfv_vmap2; auto.
      * exists (vmap2 (fun c x => c ++ [x]) cs (masked idt j (nth j data []))). split; [apply columns_gsum; auto; congruence|].
        apply Forall2_length in HF as HLc.
        rewrite columns_snoc by congruence. rewrite Nat.add_1_r, (seq_S j 0), map_app, concat_app. simpl. rewrite app_nil_r.
        apply Permutation_app_tail; auto.
    + simpl in HP. subst j. split; [lia|]. split; auto. exists (map (fun x => [x]) (masked idt 0 (nth 0 data []))). split.
      * generalize (masked idt 0 (nth 0 data [])). induction l; simpl; constructor; auto. constructor.
      * simpl. rewrite app_nil_r. generalize (masked idt 0 (nth 0 data [])). induction l; simpl; auto.
  - unfold vreduce. change (for_up 0 (dsz X) _ None) with (for_up 0 (dsz X) body None). rewrite E.
    destruct st as [r|]; [|simpl in HP; lia]. destruct HP as (_ & Wr & cs & HF & HPm). exists r, cs. auto.
Qed.
Lemma masked_concat idt data : dsz X <= length data -> Forall (wfv X) data ->
  concat (map (fun j => masked idt j (nth j data [])) (seq 0 (dsz X))) =
  firstn (xN X) (concat data) ++ repeat idt (dsz X * ext X - xN X).
Proof.
  intros HL HW. pose proof (dsz_spec HX) as (D1 & D2 & D3). pose proof (ext_pos HX) as He.
  assert (HW' : Forall (fun v => length v = ext X) data) by (eapply Forall_impl; [|exact HW]; intros v [? _]; auto).
  assert (HLc : length (concat data) = length data * ext X) by (apply concat_length; auto).
  assert (HM : forall j, j < dsz X -> length (masked idt j (nth j data [])) = ext X).
  { intros j Hj. assert (length (nth j data []) = ext X) by (apply (proj1 (Forall_forall _ _) HW'); apply nth_In; lia).
    unfold masked. destruct (_ <? _); auto. rewrite sel_length; rewrite ?repeat_length; lia. }
  assert (Hlen : length (concat (map (fun j => masked idt j (nth j data [])) (seq 0 (dsz X)))) = dsz X * ext X).
  { rewrite (@concat_length _ _ (ext X)), map_length, seq_length; auto. apply Forall_map. apply Forall_forall.
    intros j Hj. apply in_seq in Hj. apply HM. lia. }
  apply vec_ext.
  - rewrite Hlen, app_length, firstn_length, repeat_length, HLc. nia.
  - intros k Hk. rewrite Hlen in Hk.
    assert (Hkd : k / ext X < dsz X) by (apply Nat.div_lt_upper_bound; lia).
    assert (Hkm : k mod ext X < ext X) by (apply Nat.mod_upper_bound; lia).
    pose proof (Nat.div_mod k (ext X) ltac:(lia)) as Ek.
    rewrite (@get_concat _ _ (ext X)); auto.
    2:{ apply Forall_map. apply Forall_forall. intros j Hj. apply in_seq in Hj. apply HM. lia. }
    rewrite get_map.
    destruct (get_lt_ok (seq 0 (dsz X)) (k / ext X)) as [j Hj]; [rewrite seq_length; lia|].
    rewrite Hj. cbn [bind rmap]. apply get_ok in Hj. apply nth_error_nth with (d := 0) in Hj. rewrite seq_nth in Hj by lia. simpl in Hj.
    subst j. assert (HLj : length (nth (k / ext X) data []) = ext X) by (apply (proj1 (Forall_forall _ _) HW'); apply nth_In; lia).
    assert (Hgc : get (concat data) k = get (nth (k / ext X) data []) (k mod ext X)).
    { rewrite (@get_concat _ _ (ext X)) by auto. destruct (get_lt_ok data (k / ext X)) as [v Hv]; [lia|]. rewrite Hv. cbn [bind].
      apply get_ok in Hv. apply nth_error_nth with (d := []) in Hv. rewrite Hv. auto. }
    destruct (Nat.lt_ge_cases k (xN X)) as [HkN|HkN].
    + rewrite get_app_l by (rewrite firstn_length; nia). rewrite get_firstn by auto. rewrite Hgc.
      unfold masked. destruct (_ <? _); auto. rewrite get_sel by (rewrite repeat_length; auto).
      replace (k mod ext X <? xN X - k / ext X * ext X) with true by nia. auto.
    + rewrite get_app_r by (rewrite firstn_length; nia). rewrite firstn_length, HLc.
      replace (Nat.min (xN X) (length data * ext X)) with (xN X) by nia.
      rewrite (@get_rep _ idt) by lia.
      unfold masked. replace (xN X <? k / ext X * ext X + ext X) with true by nia.
      rewrite get_sel by (rewrite repeat_length; auto).
      replace (k mod ext X <? xN X - k / ext X * ext X) with false by nia.
      rewrite (@get_rep _ idt) by lia. auto.
Qed.
Lemma reduce_data_gsum idt data : reduce_compiles X = true -> red_as128 X = false -> word w idt ->
  dsz X <= length data -> Forall (wfv X) data ->
  exists r, reduce_data X op (repeat idt (ext X)) data = Ok r /\
    gsum (total f) (firstn (xN X) (concat data) ++ repeat idt (dsz X * ext X - xN X)) r.
Proof.
  intros Hc H128 Hi HL HW. destruct (vreduce_gsum H128 Hi HL HW) as (r & cs & E & Wr & HF & HP).
  exists (hreduce X op r). unfold reduce_data. rewrite E. split; [reflexivity|].
  rewrite <- masked_concat by auto. eapply gsum_perm; [exact HP|]. apply gsum_subst with (v := r); auto.
  apply hreduce_gsum; auto.
Qed.
End H.

(** *** 256-bit storage reduced as 128-bit vectors *)
Definition red_ty (X : xty) : xty := if red_as128 X then to128 X else X.
(** number of padding lanes the reduction fills with the identity *)
Definition red_pad (X : xty) : nat := dsz (red_ty X) * ext (red_ty X) - xN X.
Lemma to128_ok X : xty_ok X -> xty_ok (to128 X).
Proof. intros (Hc & HT & HN & _). repeat split; simpl; try apply Hc; auto; try apply HN. Qed.
Lemma red_ty_ok X : xty_ok X -> xty_ok (red_ty X).
Proof. intros. unfold red_ty. destruct (red_as128 X); auto using to128_ok. Qed.
Lemma red_ty_T X : xT (red_ty X) = xT X /\ xN (red_ty X) = xN X.
Proof. unfold red_ty. destruct (red_as128 X); auto. Qed.
Lemma split128_concat data : concat (split128 data) = concat data.
Proof. induction data as [|v data IH]; simpl; auto. rewrite IH, app_assoc, halves. auto. Qed.
Lemma split128_wf X data : xty_ok X -> is256 X = true -> shaped X data ->
  Forall (wfv (to128 X)) (split128 data) /\ dsz (to128 X) <= length (split128 data).
Proof.
  intros HX E256 [HL HW]. pose proof (ext_half HX E256) as Eh.
  assert (Ee : ext (to128 X) = 16 / esz (xT X)) by reflexivity.
  assert (HF : Forall (wfv (to128 X)) (split128 data)).
  { clear HL. induction HW as [|v data [Lv Wv] HW IH]; simpl; [constructor|]. destruct (words_half Wv) as [W1 W2].
    destruct (even_half v (16 / esz (xT X))) as [L1 L2]; [lia|].
    constructor; [split; [lia|exact W1]|]. constructor; [split; [lia|exact W2]|exact IH]. }
  split; auto.
  assert (L2 : length (split128 data) = dsz X + dsz X).
  { rewrite <- HL. clear. induction data; simpl; auto. lia. }
  rewrite L2. pose proof (dsz_spec HX) as (D1 & D2 & D3). pose proof (dsz_spec (to128_ok HX)) as (D1' & D2' & D3').
  rewrite Ee in *. simpl xN in *. rewrite Eh in *. pose proof (ext_pos HX). nia.
Qed.
Lemma reduce_with_gsum X (op : xty -> vec -> vec -> vec) f idt x : xty_ok X -> reduce_compiles X = true -> shaped X x ->
  (forall u v, wfv (red_ty X) u -> wfv (red_ty X) v -> op (red_ty X) u v = vmap2 f u v) ->
  (forall a b, word (xw X) a -> word (xw X) b -> word (xw X) (f a b)) -> word (xw X) idt ->
  exists r, reduce_with X op idt x = Ok r /\ gsum (total f) (elems X x ++ repeat idt (red_pad X)) r.
Proof.
  intros HX Hc Hx Hop Hf Hi. pose proof (red_ty_ok HX) as HY. unfold reduce_with, red_pad, red_ty in *.
  destruct (red_as128 X) eqn:E.
  - assert (E256 : is256 X = true) by (unfold red_as128 in E; apply andb_prop in E; apply E).
    destruct (split128_wf HX E256 Hx) as [HF HL]. cbv zeta.
    destruct (@reduce_data_gsum (to128 X) HY (op (to128 X)) f Hop Hf idt (split128 x)) as (r & Er & G); auto.
    rewrite split128_concat in G. exists r. split; auto.
  - destruct Hx as [HL HW].
    destruct (@reduce_data_gsum X HY (op X) f Hop Hf idt x) as (r & Er & G); auto; try lia. exists r. auto.
Qed.

(** *** The operations *)
Section Ops.
Context (X : xty) (HX : xty_ok X) (Hc : reduce_compiles X = true).
Let w := xw X.
Lemma elems_nonempty x : shaped X x -> elems X x <> [].
Proof.
  intros Hx E. pose proof (elems_length HX Hx) as HL. rewrite E in HL. pose proof HX as (_ & _ & HN & _). simpl in HL. lia.
Qed.
Lemma wpos : (8 <= w)%Z. Proof. apply xw_pos, HX. Qed.
Lemma red_w : xw (red_ty X) = w.
Proof. unfold xw. destruct (red_ty_T X) as [-> _]. reflexivity. Qed.
(** commutative monoids *)
Lemma reduce_fold op f idt x : shaped X x ->
  (forall u v, wfv (red_ty X) u -> wfv (red_ty X) v -> op (red_ty X) u v = vmap2 f u v) ->
  (forall a b, word w a -> word w b -> word w (f a b)) -> word w idt ->
  (forall a, word w a -> f a idt = a) -> (forall a b, word w a -> word w b -> f a b = f b a) ->
  (forall a b c, word w a -> word w b -> word w c -> f (f a b) c = f a (f b c)) ->
  reduce_with X op idt x = Ok (fold_right f idt (elems X x)).
Proof.
  intros Hx Hop Hf Hi Hid Hcomm Has.
  assert (Hid' : forall a, word w a -> f idt a = a) by (intros; rewrite Hcomm; auto).
  destruct (@reduce_with_gsum X op f idt x HX Hc Hx Hop Hf Hi) as (r & E & G). rewrite E. f_equal.
  destruct (@gsum_pad _ f (word w) idt Hid Hid' (Hid _ Hi) Hf _ _ G (elems X x) (red_pad X)) as [_ H];
    [apply Permutation_refl|apply elems_words; auto|].
  destruct (H (elems_nonempty Hx)) as [G' _].
  apply (@gsum_fold _ f (word w) idt); auto. apply elems_words; auto.
Qed.
Lemma fold_wrap_add l : words w l -> fold_right (fun a b => wrap w (a + b)) 0%Z l = wrap w (fold_right Z.add 0%Z l).
Proof.
  pose proof wpos as Hw. induction 1 as [|x l Hx Hl IH]; simpl; [unfold wrap; rewrite Z.mod_0_l; auto; pose proof (pow2_pos w); lia|].
  rewrite IH. unfold wrap. rewrite Zplus_mod_idemp_r. auto.
Qed.
Lemma fold_wrap_mul l : words w l -> fold_right (fun a b => wrap w (a * b)) 1%Z l = wrap w (fold_right Z.mul 1%Z l).
Proof.
  pose proof wpos as Hw. induction 1 as [|x l Hx Hl IH]; simpl.
  - unfold wrap. rewrite Z.mod_small; auto. pose proof (@pow2_gt1 w). lia.
  - rewrite IH. unfold wrap. rewrite Zmult_mod_idemp_r. auto.
Qed.
Lemma red_int T : is_int (xT X) = true -> xT (red_ty X) = T -> is_int T = true.
Proof. intros H <-. destruct (red_ty_T X) as [-> _]. auto. Qed.
Lemma fops_red F : fops_ok X F -> fops_ok (red_ty X) F.
Proof. intros H. unfold fops_ok in *. rewrite red_w. exact H. Qed.

Lemma reduce_add_int F x : is_int (xT X) = true -> shaped X x ->
  reduce_add F X x = Ok (wrap w (fold_right Z.add 0 (elems X x)))%Z.
Proof.
  intros Hi Hx. pose proof wpos as Hw. pose proof (pow2_pos w ltac:(lia)) as Hp. rewrite <- fold_wrap_add by (apply elems_words; auto).
  apply reduce_fold; auto.
  - intros u v Hu Hv. rewrite v_add_lanes by auto using red_ty_ok. apply vmap2_ext. intros a b _ _.
    unfold lane_add. rewrite (red_int Hi eq_refl), red_w. reflexivity.
  - intros. apply wrap_word. lia.
  - apply word_0. lia.
  - intros a [A1 A2]. rewrite Z.add_0_r. apply Z.mod_small; lia.
  - intros. f_equal. lia.
  - intros. unfold wrap. rewrite Zplus_mod_idemp_l, Zplus_mod_idemp_r. f_equal. lia.
Qed.
Lemma reduce_mul_int F x : is_int (xT X) = true -> shaped X x ->
  reduce_mul F X x = Ok (wrap w (fold_right Z.mul 1 (elems X x)))%Z.
Proof.
  intros Hi Hx. pose proof wpos as Hw. pose proof (@pow2_gt1 w ltac:(lia)) as Hp. rewrite <- fold_wrap_mul by (apply elems_words; auto).
  assert (E1 : one_of (xT X) = 1%Z) by (unfold one_of, is_int in *; destruct (ek (xT X)); [auto|discriminate]).
  unfold reduce_mul. rewrite E1.
  apply reduce_fold; auto.
  - intros u v Hu Hv. rewrite v_mul_lanes by auto using red_ty_ok. apply vmap2_ext. intros a b _ _.
    unfold lane_mul. rewrite (red_int Hi eq_refl), red_w. reflexivity.
  - intros. apply wrap_word. lia.
  - split; lia.
  - intros a [A1 A2]. rewrite Z.mul_1_r. apply Z.mod_small; lia.
  - intros. f_equal. lia.
  - intros. unfold wrap. rewrite Zmult_mod_idemp_l, Zmult_mod_idemp_r. f_equal. lia.
Qed.
Lemma reduce_and_int x : shaped X x -> reduce_and X x = Ok (fold_right Z.land (ones w) (elems X x)).
Proof.
  intros Hx. pose proof wpos. apply reduce_fold; auto; intros.
  - apply word_land; auto; lia.
  - apply word_ones; lia.
  - apply land_ones_word; auto; lia.
  - apply Z.land_comm.
  - symmetry. apply Z.land_assoc.
Qed.
Lemma reduce_or_int x : shaped X x -> reduce_or X x = Ok (fold_right Z.lor 0%Z (elems X x)).
Proof.
  intros Hx. pose proof wpos. apply reduce_fold; auto; intros.
  - apply word_lor; auto; lia.
  - apply word_0; lia.
  - apply Z.lor_0_r.
  - apply Z.lor_comm.
  - symmetry. apply Z.lor_assoc.
Qed.
Lemma reduce_xor_int x : shaped X x -> reduce_xor X x = Ok (fold_right Z.lxor 0%Z (elems X x)).
Proof.
  intros Hx. pose proof wpos. apply reduce_fold; auto; intros.
  - apply word_lxor; auto; lia.
  - apply word_0; lia.
  - apply Z.lxor_0_r.
  - apply Z.lxor_comm.
  - apply Z.lxor_assoc.
Qed.
(** floats: a sum of the elements and of red_pad identities *)
Lemma reduce_add_float F x : fops_ok X F -> is_int (xT X) = false -> shaped X x ->
  exists r, reduce_add F X x = Ok r /\ gsum (total (f_add F w)) (elems X x ++ repeat 0%Z (red_pad X)) r.
Proof.
  intros HF Hi Hx. apply reduce_with_gsum; auto.
  - intros u v Hu Hv. rewrite v_add_lanes by auto using red_ty_ok. apply vmap2_ext. intros a b _ _.
    unfold lane_add. destruct (red_ty_T X) as [-> _]. rewrite Hi, red_w. reflexivity.
  - intros; apply HF; auto.
  - apply word_0. pose proof wpos. unfold w in *; lia.
Qed.
Lemma one_word : is_int (xT X) = false -> word w (one_of (xT X)).
Proof.
  intros Hi. pose proof HX as (_ & HT & _). unfold one_of, w, xw, ew, ety_ok, is_int in *. destruct (ek (xT X)); [discriminate|].
  destruct HT as [-> | ->]; cbv; intuition discriminate.
Qed.
Lemma reduce_mul_float F x : fops_ok X F -> is_int (xT X) = false -> shaped X x ->
  exists r, reduce_mul F X x = Ok r /\ gsum (total (f_mul F w)) (elems X x ++ repeat (one_of (xT X)) (red_pad X)) r.
Proof.
  intros HF Hi Hx. apply reduce_with_gsum; auto.
  - intros u v Hu Hv. rewrite v_mul_lanes by auto using red_ty_ok. apply vmap2_ext. intros a b _ _.
    unfold lane_mul. destruct (red_ty_T X) as [-> _]. rewrite Hi, red_w. reflexivity.
  - intros; apply HF; auto.
  - apply one_word; auto.
Qed.

(** min / max *)
Definition sel_op (le : Z -> Z -> bool) (a b : Z) : Z := if le a b then a else b.
(** any operation returning one of its arguments, smaller w.r.t. a key *)
Lemma gsum_select (f : Z -> Z -> Z) (key : Z -> Z) (P : Z -> Prop) :
  (forall a b, P a -> P b -> (f a b = a /\ key a <= key b)%Z \/ (f a b = b /\ key b <= key a)%Z) ->
  forall l r, gsum (total f) l r -> Forall P l -> In r l /\ (forall y, In y l -> key r <= key y)%Z.
Proof.
  intros Hf l r H. induction H as [x|l l1 l2 x y z HP H1 IH1 H2 IH2 E]; intros HF.
  - split; [left; auto|]. intros y [->|[]]. lia.
  - assert (HF' : Forall P (l1 ++ l2)) by (eapply Permutation_Forall; eauto). apply Forall_app in HF'. destruct HF' as [F1 F2].
    destruct (IH1 F1) as [I1 J1]. destruct (IH2 F2) as [I2 J2]. unfold total in E; injection E as <-.
    assert (Px : P x) by (apply (proj1 (Forall_forall _ _) F1); auto).
    assert (Py : P y) by (apply (proj1 (Forall_forall _ _) F2); auto).
    assert (Hin : forall u, In u l <-> In u l1 \/ In u l2).
    { intros u. split; intros Hu.
      - apply in_app_or. eapply Permutation_in; eauto.
      - eapply Permutation_in; [symmetry; exact HP|]. apply in_or_app; auto. }
    destruct (Hf x y Px Py) as [[-> Hk]|[-> Hk]]; (split; [apply Hin; auto|]); intros u Hu; apply Hin in Hu;
      (destruct Hu as [Hu|Hu]; [specialize (J1 _ Hu)|specialize (J2 _ Hu)]; lia).
Qed.
Lemma i_min_select a b : (i_min (xT X) a b = a /\ ival (ity_of (xT X)) a <= ival (ity_of (xT X)) b)%Z \/
  (i_min (xT X) a b = b /\ ival (ity_of (xT X)) b <= ival (ity_of (xT X)) a)%Z.
Proof. unfold i_min. destruct (Z.ltb_spec (ival (ity_of (xT X)) a) (ival (ity_of (xT X)) b)); [left|right]; lia. Qed.
Lemma i_max_select a b : (i_max (xT X) a b = a /\ - ival (ity_of (xT X)) a <= - ival (ity_of (xT X)) b)%Z \/
  (i_max (xT X) a b = b /\ - ival (ity_of (xT X)) b <= - ival (ity_of (xT X)) a)%Z.
Proof. unfold i_max. destruct (Z.ltb_spec (ival (ity_of (xT X)) b) (ival (ity_of (xT X)) a)); [left|right]; lia. Qed.
Lemma ival_bounds a : is_int (xT X) = true -> word w a ->
  (ival (ity_of (xT X)) (lowest_of (xT X)) <= ival (ity_of (xT X)) a <= ival (ity_of (xT X)) (max_of (xT X)))%Z.
Proof.
  intros Hi [A1 A2]. pose proof wpos as Hw. unfold w, xw in *. unfold ival, ity_of, lowest_of, max_of, is_int in *. cbn [isg iw] in *.
  destruct (ek (xT X)) as [[]|]; try discriminate.
  - unfold sgn. pose proof (pow2_pred (ew (xT X)) ltac:(lia)) as E. pose proof (pow2_pos (ew (xT X) - 1) ltac:(lia)) as Hp.
    repeat match goal with |- context [if ?c then _ else _] => destruct c eqn:? end; lia.
  - lia.
Qed.
Lemma ival_inj a b : word w a -> word w b -> ival (ity_of (xT X)) a = ival (ity_of (xT X)) b -> a = b.
Proof.
  intros [A1 A2] [B1 B2]. pose proof wpos as Hw. unfold w, xw in *. unfold ival, ity_of. cbn [isg iw]. destruct (ek (xT X)) as [[]|]; auto.
  unfold sgn. pose proof (pow2_pred (ew (xT X)) ltac:(lia)) as E.
  repeat match goal with |- context [if ?c then _ else _] => destruct c eqn:? end; lia.
Qed.
Lemma max_word : word w (max_of (xT X)) /\ word w (lowest_of (xT X)).
Proof.
  pose proof wpos as Hw. pose proof HX as (_ & HT & _). unfold w, xw in *. unfold word, max_of, lowest_of, ety_ok in *.
  pose proof (pow2_pred (ew (xT X)) ltac:(lia)) as E. pose proof (pow2_pos (ew (xT X) - 1) ltac:(lia)) as Hp.
  destruct (ek (xT X)) as [[]|]; try lia. unfold ew in *. destruct HT as [-> | ->]; cbv; intuition discriminate.
Qed.
Lemma red_min u v : wfv (red_ty X) u -> wfv (red_ty X) v ->
  v_min (red_ty X) u v = vmap2 (if is_int (xT X) then i_min (xT X) else f_min w) u v.
Proof. intros _ _. unfold v_min, is_int. rewrite red_w. destruct (red_ty_T X) as [-> _]. destruct (ek (xT X)); auto. Qed.
Lemma red_max u v : wfv (red_ty X) u -> wfv (red_ty X) v ->
  v_max (red_ty X) u v = vmap2 (if is_int (xT X) then i_max (xT X) else f_max w) u v.
Proof. intros _ _. unfold v_max, is_int. rewrite red_w. destruct (red_ty_T X) as [-> _]. destruct (ek (xT X)); auto. Qed.
Lemma reduce_min_int x : is_int (xT X) = true -> shaped X x ->
  exists r, reduce_min X x = Ok r /\ In r (elems X x) /\
    forall y, In y (elems X x) -> (ival (ity_of (xT X)) r <= ival (ity_of (xT X)) y)%Z.
Proof.
  intros Hi Hx. destruct max_word as [Wm _].
  destruct (@reduce_with_gsum X v_min (i_min (xT X)) (max_of (xT X)) x HX Hc Hx) as (r & E & G); auto.
  - intros u v Hu Hv. rewrite red_min, Hi; auto.
  - intros a b Ha Hb. destruct (i_min_select a b) as [[-> _]|[-> _]]; auto.
  - exists r. split; auto.
    assert (Hid : forall a, word w a -> i_min (xT X) a (max_of (xT X)) = a /\ i_min (xT X) (max_of (xT X)) a = a).
    { intros a Ha. pose proof (ival_bounds Hi Ha) as [_ HB]. unfold i_min. split.
      - destruct (Z.ltb_spec (ival (ity_of (xT X)) a) (ival (ity_of (xT X)) (max_of (xT X)))); auto. symmetry. apply ival_inj; auto. lia.
      - destruct (Z.ltb_spec (ival (ity_of (xT X)) (max_of (xT X))) (ival (ity_of (xT X)) a)); auto. lia. }
    destruct (@gsum_pad _ (i_min (xT X)) (word w) (max_of (xT X))) with (L := elems X x ++ repeat (max_of (xT X)) (red_pad X)) (r := r)
       (l := elems X x) (k := red_pad X) as [_ H]; auto; try (intros a Ha; apply Hid; auto).
    + apply Hid; auto.
    + intros a b Ha Hb. destruct (i_min_select a b) as [[-> _]|[-> _]]; auto.
    + apply elems_words; auto.
    + destruct (H (elems_nonempty Hx)) as [G' _].
      apply (@gsum_select (i_min (xT X)) (ival (ity_of (xT X))) (word w)); auto; [intros; apply i_min_select|apply elems_words; auto].
Qed.
Lemma reduce_max_int x : is_int (xT X) = true -> shaped X x ->
  exists r, reduce_max X x = Ok r /\ In r (elems X x) /\
    forall y, In y (elems X x) -> (ival (ity_of (xT X)) y <= ival (ity_of (xT X)) r)%Z.
Proof.
  intros Hi Hx. destruct max_word as [_ Wm].
  destruct (@reduce_with_gsum X v_max (i_max (xT X)) (lowest_of (xT X)) x HX Hc Hx) as (r & E & G); auto.
  - intros u v Hu Hv. rewrite red_max, Hi; auto.
  - intros a b Ha Hb. destruct (i_max_select a b) as [[-> _]|[-> _]]; auto.
  - exists r. split; auto.
    assert (Hid : forall a, word w a -> i_max (xT X) a (lowest_of (xT X)) = a /\ i_max (xT X) (lowest_of (xT X)) a = a).
    { intros a Ha. pose proof (ival_bounds Hi Ha) as [HB _]. unfold i_max. split.
      - destruct (Z.ltb_spec (ival (ity_of (xT X)) (lowest_of (xT X))) (ival (ity_of (xT X)) a)); auto. symmetry. apply ival_inj; auto. lia.
      - destruct (Z.ltb_spec (ival (ity_of (xT X)) a) (ival (ity_of (xT X)) (lowest_of (xT X)))); auto. lia. }
    destruct (@gsum_pad _ (i_max (xT X)) (word w) (lowest_of (xT X))) with (L := elems X x ++ repeat (lowest_of (xT X)) (red_pad X)) (r := r)
       (l := elems X x) (k := red_pad X) as [_ H]; auto; try (intros a Ha; apply Hid; auto).
    + apply Hid; auto.
    + intros a b Ha Hb. destruct (i_max_select a b) as [[-> _]|[-> _]]; auto.
    + apply elems_words; auto.
    + destruct (H (elems_nonempty Hx)) as [G' _].
      destruct (@gsum_select (i_max (xT X)) (fun a => - ival (ity_of (xT X)) a)%Z (word w)) with (l := elems X x) (r := r) as [I0 J];
        auto; [intros; apply i_max_select|apply elems_words; auto|].
      split; auto. intros y Hy. specialize (J y Hy). simpl in J. lia.
Qed.

(** float min / max: ordinary order of the values, NaN excluded *)
Definition ok_min (a : Z) : Prop := word w a /\ fnan w a = false /\ (fkey w a <= fkey w (max_of (xT X)))%Z.
Definition ok_max (a : Z) : Prop := word w a /\ fnan w a = false /\ (fkey w (lowest_of (xT X)) <= fkey w a)%Z.
Lemma fw_cases : is_int (xT X) = false -> (w = 32 \/ w = 64)%Z.
Proof. intros Hi. apply float_w; auto. apply HX. Qed.
Lemma fkey_inj a b : word w a -> word w b -> fkey w a = fkey w b -> (fkey w a <> 0)%Z -> a = b.
Proof.
  pose proof wpos as Hw. intros [A1 A2] [B1 B2]. pose proof (pow2_pred w ltac:(lia)) as E. pose proof (pow2_pos (w - 1) ltac:(lia)) as Hp.
  unfold fkey, fsign, fmag.
  assert (HM : forall x, (0 <= x < 2 ^ w)%Z -> (x mod 2 ^ (w - 1) = if 2 ^ (w - 1) <=? x then x - 2 ^ (w - 1) else x)%Z).
  { intros x Hx. destruct (Z.leb_spec (2 ^ (w - 1)) x).
    - rewrite <- (Z.mod_small (x - 2 ^ (w - 1)) (2 ^ (w - 1))) by lia. rewrite <- (Z_mod_plus_full (x - 2 ^ (w - 1)) 1). f_equal. lia.
    - apply Z.mod_small. lia. }
  rewrite !HM by lia. destruct (Z.leb_spec (2 ^ (w - 1)) a), (Z.leb_spec (2 ^ (w - 1)) b); lia.
Qed.
Lemma max_float : is_int (xT X) = false ->
  fnan w (max_of (xT X)) = false /\ (0 < fkey w (max_of (xT X)))%Z /\
  fnan w (lowest_of (xT X)) = false /\ (fkey w (lowest_of (xT X)) < 0)%Z.
Proof.
  intros Hi. pose proof HX as (_ & HT & _). unfold max_of, lowest_of, w, xw, ew, ety_ok, is_int in *. destruct (ek (xT X)); [discriminate|].
  destruct HT as [-> | ->]; cbv; intuition discriminate.
Qed.
Lemma f_min_id a : is_int (xT X) = false -> ok_min a ->
  f_min w a (max_of (xT X)) = a /\ f_min w (max_of (xT X)) a = a.
Proof.
  intros Hi (Wa & Na & Ka). destruct (max_float Hi) as (Nm & Km & _). destruct max_word as [Wm _].
  unfold f_min, flt. rewrite Na, Nm. cbn [negb andb]. split.
  - destruct (Z.ltb_spec (fkey w a) (fkey w (max_of (xT X)))); auto. symmetry. apply fkey_inj; auto; lia.
  - destruct (Z.ltb_spec (fkey w (max_of (xT X))) (fkey w a)); auto; lia.
Qed.
Lemma f_max_id a : is_int (xT X) = false -> ok_max a ->
  f_max w a (lowest_of (xT X)) = a /\ f_max w (lowest_of (xT X)) a = a.
Proof.
  intros Hi (Wa & Na & Ka). destruct (max_float Hi) as (_ & _ & Nm & Km). destruct max_word as [_ Wm].
  unfold f_max, flt. rewrite Na, Nm. cbn [negb andb]. split.
  - destruct (Z.ltb_spec (fkey w (lowest_of (xT X))) (fkey w a)); auto. symmetry. apply fkey_inj; auto; lia.
  - destruct (Z.ltb_spec (fkey w a) (fkey w (lowest_of (xT X)))); auto; lia.
Qed.
Lemma f_min_select a b : fnan w a = false -> fnan w b = false ->
  (f_min w a b = a /\ fkey w a <= fkey w b)%Z \/ (f_min w a b = b /\ fkey w b <= fkey w a)%Z.
Proof.
  intros Na Nb. unfold f_min, flt. rewrite Na, Nb. cbn [negb andb].
  destruct (Z.ltb_spec (fkey w a) (fkey w b)); [left|right]; split; auto; lia.
Qed.
Lemma f_max_select a b : fnan w a = false -> fnan w b = false ->
  (f_max w a b = a /\ - fkey w a <= - fkey w b)%Z \/ (f_max w a b = b /\ - fkey w b <= - fkey w a)%Z.
Proof.
  intros Na Nb. unfold f_max, flt. rewrite Na, Nb. cbn [negb andb].
  destruct (Z.ltb_spec (fkey w b) (fkey w a)); [left|right]; split; auto; lia.
Qed.
Lemma reduce_min_float x : is_int (xT X) = false -> shaped X x ->
  (forall y, In y (elems X x) -> fnan w y = false) ->
  (red_pad X = 0 \/ forall y, In y (elems X x) -> (fkey w y <= fkey w (max_of (xT X)))%Z) ->
  exists r, reduce_min X x = Ok r /\ In r (elems X x) /\ forall y, In y (elems X x) -> fle w r y = true.
Proof.
  intros Hi Hx Hn Hp. destruct max_word as [Wm _].
  destruct (@reduce_with_gsum X v_min (f_min w) (max_of (xT X)) x HX Hc Hx) as (r & E & G); auto.
  - intros u v Hu Hv. rewrite red_min, Hi; auto.
  - intros a b Ha Hb. unfold f_min. destruct (flt w a b); auto.
  - exists r. split; auto.
    assert (G' : gsum (total (f_min w)) (elems X x) r).
    { destruct Hp as [Hp|Hp]; [rewrite Hp, app_nil_r in G; auto|].
      destruct (@gsum_pad _ (f_min w) ok_min (max_of (xT X))) with (L := elems X x ++ repeat (max_of (xT X)) (red_pad X)) (r := r)
        (l := elems X x) (k := red_pad X) as [_ H]; auto; try (intros a Ha; apply f_min_id; auto).
      - unfold f_min. destruct (flt w _ _); auto.
      - intros a b Ha Hb. destruct (f_min_select a b) as [[-> _]|[-> _]]; auto; [apply Ha|apply Hb].
      - apply Forall_forall. intros y Hy. split; [apply (proj1 (Forall_forall _ _) (elems_words Hx)); auto|auto].
      - apply H. apply elems_nonempty; auto. }
    destruct (@gsum_select (f_min w) (fkey w) (fun a => fnan w a = false)) with (l := elems X x) (r := r) as [I0 J]; auto.
    + intros; apply f_min_select; auto.
    + apply Forall_forall; auto.
    + split; auto. intros y Hy. unfold fle. rewrite (Hn r I0), (Hn y Hy). specialize (J y Hy). simpl. lia.
Qed.
Lemma reduce_max_float x : is_int (xT X) = false -> shaped X x ->
  (forall y, In y (elems X x) -> fnan w y = false) ->
  (red_pad X = 0 \/ forall y, In y (elems X x) -> (fkey w (lowest_of (xT X)) <= fkey w y)%Z) ->
  exists r, reduce_max X x = Ok r /\ In r (elems X x) /\ forall y, In y (elems X x) -> fle w y r = true.
Proof.
  intros Hi Hx Hn Hp. destruct max_word as [_ Wm].
  destruct (@reduce_with_gsum X v_max (f_max w) (lowest_of (xT X)) x HX Hc Hx) as (r & E & G); auto.
  - intros u v Hu Hv. rewrite red_max, Hi; auto.
  - intros a b Ha Hb. unfold f_max. destruct (flt w b a); auto.
  - exists r. split; auto.
    assert (G' : gsum (total (f_max w)) (elems X x) r).
    { destruct Hp as [Hp|Hp]; [rewrite Hp, app_nil_r in G; auto|].
      destruct (@gsum_pad _ (f_max w) ok_max (lowest_of (xT X))) with (L := elems X x ++ repeat (lowest_of (xT X)) (red_pad X)) (r := r)
        (l := elems X x) (k := red_pad X) as [_ H]; auto; try (intros a Ha; apply f_max_id; auto).
      - unfold f_max. destruct (flt w _ _); auto.
      - intros a b Ha Hb. destruct (f_max_select a b) as [[-> _]|[-> _]]; auto; [apply Ha|apply Hb].
      - apply Forall_forall. intros y Hy. split; [apply (proj1 (Forall_forall _ _) (elems_words Hx)); auto|auto].
      - apply H. apply elems_nonempty; auto. }
    destruct (@gsum_select (f_max w) (fun a => - fkey w a)%Z (fun a => fnan w a = false)) with (l := elems X x) (r := r) as [I0 J]; auto.
    + intros; apply f_max_select; auto.
    + apply Forall_forall; auto.
    + split; auto. intros y Hy. unfold fle. rewrite (Hn r I0), (Hn y Hy). specialize (J y Hy). simpl in J. simpl. lia.
Qed.
End Ops.
