(** Common vocabulary of the model: outcomes, checked arrays, counted loops, words.

    Nothing here models one particular function of /repo; it is the small C++ "machine" the other
    files are written in.

    - [res A] is the outcome of a C++ evaluation: a value, or undefined behaviour ([UB]).
    - [get]/[set] are array accesses; outside the array they are [UB].
    - [for_up lo hi body s] is [for (i = lo; i < hi; ++i) s = body(i, s)]. *)
From Coq Require Export List Arith ZArith Lia Bool.
From Coq Require Import ZifyBool ZifyNat.
Export ListNotations.

Inductive res (A : Type) : Type :=
| Ok (a : A)
| UB.
Arguments Ok {A} a.
Arguments UB {A}.

Definition bind {A B} (m : res A) (k : A -> res B) : res B :=
  match m with Ok a => k a | UB => UB end.
Notation "x <- e ;; k" := (bind e (fun x => k)) (at level 61, e at next level, right associativity).
Notation "' p <- e ;; k" := (bind e (fun p => k)) (at level 61, p pattern, e at next level, right associativity).

Definition rmap {A B} (f : A -> B) (m : res A) : res B := x <- m;; Ok (f x).

Definition get {A} (l : list A) (i : nat) : res A :=
  match nth_error l i with Some a => Ok a | None => UB end.

Fixpoint set {A} (l : list A) (i : nat) (v : A) : res (list A) :=
  match l, i with
  | [], _ => UB
  | _ :: l', O => Ok (v :: l')
  | x :: l', S i' => r <- set l' i' v;; Ok (x :: r)
  end.

Fixpoint for_n {S : Type} (n i : nat) (body : nat -> S -> res S) (s : S) : res S :=
  match n with
  | O => Ok s
  | Datatypes.S n' => s' <- body i s;; for_n n' (Datatypes.S i) body s'
  end.
Definition for_up {S : Type} (lo hi : nat) (body : nat -> S -> res S) (s : S) : res S :=
  for_n (hi - lo) lo body s.

Fixpoint mapM {A B} (f : A -> res B) (l : list A) : res (list B) :=
  match l with
  | [] => Ok []
  | x :: l' => y <- f x;; ys <- mapM f l';; Ok (y :: ys)
  end.

(** *** Outcome lemmas *)
Lemma bind_ok {A B} (m : res A) (k : A -> res B) b :
  bind m k = Ok b <-> exists a, m = Ok a /\ k a = Ok b.
Proof.
  destruct m; simpl; split.
  - intros; exists a; auto.
  - intros (a' & H & H'); inversion H; subst; auto.
  - discriminate.
  - intros (a' & H & _); discriminate.
Qed.
Lemma bind_ub {A B} (m : res A) (k : A -> res B) :
  bind m k = UB <-> m = UB \/ exists a, m = Ok a /\ k a = UB.
Proof.
  destruct m; simpl; split; auto.
  - intros H; right; exists a; auto.
  - intros [H|(a' & H & H')]; inversion H; subst; auto.
Qed.
Lemma bind_assoc {A B C} (m : res A) (k : A -> res B) (k' : B -> res C) :
  bind (bind m k) k' = bind m (fun a => bind (k a) k').
Proof. destruct m; reflexivity. Qed.
Lemma bind_ret {A} (m : res A) : bind m Ok = m.
Proof. destruct m; reflexivity. Qed.
Lemma bind_ext {A B} (m : res A) (k k' : A -> res B) :
  (forall a, m = Ok a -> k a = k' a) -> bind m k = bind m k'.
Proof. destruct m; simpl; auto. Qed.
Lemma res_dec {A} (m : res A) : (exists a, m = Ok a) \/ m = UB.
Proof. destruct m; eauto. Qed.
Lemma res_ext {A} (m m' : res A) : (forall v, m = Ok v <-> m' = Ok v) -> m = m'.
Proof.
  intros H. destruct m as [a|].
  - symmetry. apply H. reflexivity.
  - destruct m' as [b|]; auto. apply H. reflexivity.
Qed.

(** *** Checked arrays *)
Lemma get_ok {A} (l : list A) i v : get l i = Ok v <-> nth_error l i = Some v.
Proof. unfold get; destruct (nth_error l i); split; intros H; inversion H; auto. Qed.
Lemma get_ok_lt {A} (l : list A) i v : get l i = Ok v -> i < length l.
Proof. rewrite get_ok. intros H. apply nth_error_Some. congruence. Qed.
Lemma get_lt_ok {A} (l : list A) i : i < length l -> exists v, get l i = Ok v.
Proof.
  intros H. unfold get. destruct (nth_error l i) eqn:E; eauto.
  apply nth_error_None in E; lia.
Qed.
Lemma get_ub {A} (l : list A) i : get l i = UB <-> length l <= i.
Proof.
  unfold get. destruct (nth_error l i) eqn:E; split; intros H; auto; try discriminate.
  - assert (nth_error l i <> None) by congruence. apply nth_error_Some in H0; lia.
  - apply nth_error_None; auto.
Qed.
Lemma get_nth {A} (l : list A) i d : i < length l -> get l i = Ok (nth i l d).
Proof. intros H. apply get_ok. apply nth_error_nth'. auto. Qed.
Lemma get_cons_S {A} (x : A) l i : get (x :: l) (S i) = get l i.
Proof. reflexivity. Qed.
Lemma get_cons_0 {A} (x : A) l : get (x :: l) 0 = Ok x.
Proof. reflexivity. Qed.
Lemma get_app_l {A} (l l' : list A) i : i < length l -> get (l ++ l') i = get l i.
Proof. intros. unfold get. rewrite nth_error_app1; auto. Qed.
Lemma get_app_r {A} (l l' : list A) i : length l <= i -> get (l ++ l') i = get l' (i - length l).
Proof. intros. unfold get. rewrite nth_error_app2; auto. Qed.
Lemma get_map {A B} (f : A -> B) l i : get (map f l) i = rmap f (get l i).
Proof. unfold get, rmap. rewrite nth_error_map. destruct (nth_error l i); reflexivity. Qed.
Lemma get_repeat {A} (x : A) n i : i < n -> get (repeat x n) i = Ok x.
Proof. intros. apply get_ok. apply nth_error_repeat; auto. Qed.
Lemma get_skipn {A} (l : list A) n i : get (skipn n l) i = get l (n + i).
Proof.
  revert l; induction n as [|n IH]; intros l; simpl; auto.
  destruct l; simpl; [|apply IH].
  rewrite !(proj2 (get_ub _ _)); simpl; auto; lia.
Qed.
Lemma get_firstn {A} (l : list A) n i : i < n -> get (firstn n l) i = get l i.
Proof.
  revert l i; induction n as [|n IH]; intros l i H; [lia|].
  destruct l; simpl; auto. destruct i; [reflexivity|].
  rewrite !get_cons_S. apply IH. lia.
Qed.
Lemma get_seq lo n i : i < n -> get (seq lo n) i = Ok (lo + i).
Proof.
  intros H. rewrite (get_nth _ _ 0) by (rewrite seq_length; auto).
  rewrite seq_nth by auto. reflexivity.
Qed.
Lemma list_get_ext {A} (l l' : list A) :
  length l = length l' -> (forall i, i < length l -> get l i = get l' i) -> l = l'.
Proof.
  revert l'; induction l as [|x l IH]; intros [|y l'] HL H; simpl in *; try discriminate; auto.
  f_equal.
  - specialize (H 0 ltac:(lia)). rewrite !get_cons_0 in H. congruence.
  - apply IH; [lia|]. intros i Hi. specialize (H (S i) ltac:(lia)). rewrite !get_cons_S in H. auto.
Qed.

Lemma set_ok_iff {A} (l : list A) i v r :
  set l i v = Ok r <->
  i < length l /\ length r = length l /\ get r i = Ok v /\ (forall j, j <> i -> get r j = get l j).
Proof.
  revert i r; induction l as [|x l IH]; intros i r; simpl.
  - split; [discriminate|intros (H & _); lia].
  - destruct i.
    + split.
      * intros H; inversion H; subst; clear H. simpl. repeat split; auto; try lia.
        intros [|j] Hj; [lia|reflexivity].
      * intros (_ & HL & Hg & Ho). destruct r as [|y r]; simpl in *; [lia|].
        rewrite get_cons_0 in Hg; inversion Hg; subst. do 2 f_equal.
        apply list_get_ext; [lia|]. intros j Hj.
        specialize (Ho (S j) ltac:(lia)). rewrite !get_cons_S in Ho. auto.
    + rewrite bind_ok. split.
      * intros (r' & Hr & Hr'). inversion Hr'; subst; clear Hr'.
        apply IH in Hr. destruct Hr as (H1 & H2 & H3 & H4). simpl.
        repeat split; auto; try lia.
        intros [|j] Hj; [reflexivity|]. rewrite !get_cons_S. apply H4; lia.
      * intros (H1 & H2 & H3 & H4). destruct r as [|y r]; simpl in *; [lia|].
        exists r. split.
        -- apply IH. rewrite get_cons_S in H3. repeat split; auto; try lia.
           intros j Hj. specialize (H4 (S j) ltac:(lia)). rewrite !get_cons_S in H4. auto.
        -- specialize (H4 0 ltac:(lia)). rewrite !get_cons_0 in H4. inversion H4; subst. reflexivity.
Qed.
Lemma set_lt_ok {A} (l : list A) i v : i < length l -> exists r, set l i v = Ok r.
Proof.
  revert i; induction l as [|x l IH]; intros i H; simpl in *; [lia|].
  destruct i; eauto. destruct (IH i) as [r Hr]; [lia|]. rewrite Hr. simpl; eauto.
Qed.
Lemma set_ub {A} (l : list A) i v : set l i v = UB <-> length l <= i.
Proof.
  split.
  - intros H. destruct (Nat.lt_ge_cases i (length l)) as [L|L]; auto.
    destruct (set_lt_ok l i v L) as [r Hr]. congruence.
  - intros H. destruct (set l i v) eqn:E; auto. apply set_ok_iff in E. lia.
Qed.
Lemma set_length {A} (l : list A) i v r : set l i v = Ok r -> length r = length l.
Proof. rewrite set_ok_iff. tauto. Qed.

(** *** Loops *)
Lemma for_n_inv {S} (P : nat -> S -> Prop) n i body s :
  P i s ->
  (forall j t, i <= j < i + n -> P j t -> exists t', body j t = Ok t' /\ P (j + 1) t') ->
  exists s', for_n n i body s = Ok s' /\ P (i + n) s'.
Proof.
  revert i s; induction n as [|n IH]; intros i s HP Hb; simpl.
  - exists s. rewrite Nat.add_0_r. auto.
  - destruct (Hb i s ltac:(lia) HP) as (t & Ht & HPt). rewrite Ht; simpl.
    destruct (IH (Datatypes.S i) t) as (s' & Hs' & HP').
    + replace (Datatypes.S i) with (i + 1) by lia; auto.
    + intros j t' Hj. apply Hb; lia.
    + exists s'. split; auto. replace (i + Datatypes.S n) with (Datatypes.S i + n) by lia; auto.
Qed.
Lemma for_up_inv {S} (P : nat -> S -> Prop) lo hi body s :
  lo <= hi -> P lo s ->
  (forall j t, lo <= j < hi -> P j t -> exists t', body j t = Ok t' /\ P (j + 1) t') ->
  exists s', for_up lo hi body s = Ok s' /\ P hi s'.
Proof.
  intros HL HP Hb. unfold for_up.
  destruct (for_n_inv P (hi - lo) lo body s HP) as (s' & H & HP').
  - intros; apply Hb; lia || auto.
  - exists s'. split; auto. replace hi with (lo + (hi - lo)) at 1 by lia; auto.
Qed.
Lemma for_n_ext {S} n i (b b' : nat -> S -> res S) s :
  (forall j t, i <= j < i + n -> b j t = b' j t) -> for_n n i b s = for_n n i b' s.
Proof.
  revert i s; induction n as [|n IH]; intros i s H; simpl; auto.
  rewrite H by lia. apply bind_ext. intros t Ht. apply IH. intros; apply H; lia.
Qed.
Lemma for_up_ext {S} lo hi (b b' : nat -> S -> res S) s :
  (forall j t, lo <= j < hi -> b j t = b' j t) -> for_up lo hi b s = for_up lo hi b' s.
Proof. intros H. apply for_n_ext. intros; apply H; lia. Qed.
Lemma for_n_snoc {S} n i (b : nat -> S -> res S) s :
  for_n (Datatypes.S n) i b s = (t <- for_n n i b s;; b (i + n) t).
Proof.
  revert i s; induction n as [|n IH]; intros i s.
  - simpl. rewrite bind_ret. rewrite Nat.add_0_r. reflexivity.
  - change (for_n (Datatypes.S (Datatypes.S n)) i b s) with (s' <- b i s;; for_n (Datatypes.S n) (Datatypes.S i) b s').
    simpl (for_n (Datatypes.S n) i b s). rewrite bind_assoc. apply bind_ext. intros t Ht.
    rewrite IH. apply bind_ext. intros. f_equal; lia.
Qed.
Lemma for_up_snoc {S} n (b : nat -> S -> res S) s :
  for_up 0 (n + 1) b s = (t <- for_up 0 n b s;; b n t).
Proof.
  unfold for_up. rewrite !Nat.sub_0_r, Nat.add_1_r, for_n_snoc. reflexivity.
Qed.

(** The standard loop of the library: [for (i = 0; i < N; ++i) r[i] = f(i);]. *)
Definition fill {A} (N : nat) (f : nat -> res A) (r0 : list A) : res (list A) :=
  for_up 0 N (fun i r => v <- f i;; set r i v) r0.

Lemma fill_ok_iff {A} N (f : nat -> res A) r0 r :
  N <= length r0 ->
  (fill N f r0 = Ok r <->
   length r = length r0 /\ (forall i, i < N -> f i = get r i) /\ (forall i, N <= i -> get r i = get r0 i)).
Proof.
  intros HN. unfold fill.
  revert r. induction N as [|N IH]; intros r.
  - unfold for_up; simpl. split.
    + intros H; inversion H; subst. repeat split; auto; lia.
    + intros (HL & _ & H). f_equal. symmetry. apply list_get_ext; auto. intros; apply H; lia.
  - replace (S N) with (N + 1) by lia. rewrite for_up_snoc, bind_ok.
    specialize (IH ltac:(lia)). split.
    + intros (t & Ht & Hs). apply IH in Ht. destruct Ht as (H1 & H2 & H3).
      apply bind_ok in Hs. destruct Hs as (v & Hv & Hs).
      apply set_ok_iff in Hs. destruct Hs as (K1 & K2 & K3 & K4).
      repeat split; try lia.
      * intros i Hi. destruct (Nat.eq_dec i N) as [->|Hne].
        -- rewrite Hv, K3; auto.
        -- rewrite K4 by lia. apply H2; lia.
      * intros i Hi. rewrite K4 by lia. apply H3; lia.
    + intros (H1 & H2 & H3).
      destruct (get_lt_ok r N ltac:(lia)) as [v Hv].
      destruct (get_lt_ok r0 N ltac:(lia)) as [v0 Hv0].
      destruct (set_lt_ok r N v0 ltac:(lia)) as [t Ht].
      apply set_ok_iff in Ht. destruct Ht as (K1 & K2 & K3 & K4).
      exists t. split.
      * apply IH. repeat split; try lia.
        -- intros i Hi. rewrite K4 by lia. apply H2; lia.
        -- intros i Hi. destruct (Nat.eq_dec i N) as [->|Hne]; [congruence|].
           rewrite K4 by lia. apply H3; lia.
      * rewrite H2, Hv by lia. simpl. apply set_ok_iff. repeat split; auto; try lia.
        intros j Hj. symmetry; apply K4; auto.
Qed.
Lemma fill_ok_ex {A} N (f : nat -> res A) r0 :
  N <= length r0 ->
  ((exists r, fill N f r0 = Ok r) <-> forall i, i < N -> exists v, f i = Ok v).
Proof.
  intros HN. split.
  - intros [r Hr] i Hi. apply fill_ok_iff in Hr; auto. destruct Hr as (H1 & H2 & _).
    rewrite H2 by auto. apply get_lt_ok. lia.
  - intros H. unfold fill.
    destruct (for_up_inv (fun i r => length r = length r0) 0 N (fun i r => v <- f i;; set r i v) r0)
      as (s & Hs & _); eauto; [lia|].
    intros j t Hj HL. destruct (H j) as [v Hv]; [lia|]. rewrite Hv; simpl.
    destruct (set_lt_ok t j v) as [r Hr]; [lia|]. exists r; split; auto.
    apply set_length in Hr; congruence.
Qed.
Lemma fill_ub_iff {A} N (f : nat -> res A) r0 :
  N <= length r0 -> (fill N f r0 = UB <-> exists i, i < N /\ f i = UB).
Proof.
  intros HN. split.
  - intros H.
    assert (D : (exists i, i < N /\ f i = UB) \/ forall i, i < N -> exists v, f i = Ok v).
    { clear -f. induction N as [|N IH]; [right; lia|].
      destruct IH as [(i & Hi & Hf)|IH]; [left; exists i; split; auto; lia|].
      destruct (f N) eqn:E.
      - right. intros i Hi. destruct (Nat.eq_dec i N) as [->|]; eauto. apply IH; lia.
      - left. exists N; split; auto. }
    destruct D as [D|D]; auto.
    apply (fill_ok_ex N f r0 HN) in D. destruct D as [r Hr]; congruence.
  - intros (i & Hi & Hf). destruct (fill N f r0) eqn:E; auto.
    apply fill_ok_iff in E; auto. destruct E as (H1 & H2 & _).
    specialize (H2 i Hi). rewrite Hf in H2. symmetry in H2. apply get_ub in H2. lia.
Qed.

Lemma mapM_ok_iff {A B} (f : A -> res B) l r :
  mapM f l = Ok r <-> length r = length l /\ forall i a, get l i = Ok a -> f a = get r i.
Proof.
  revert r; induction l as [|x l IH]; intros r; simpl.
  - split.
    + intros H; inversion H; subst. split; auto. intros i a Hi. apply get_ok_lt in Hi; simpl in Hi; lia.
    + intros (HL & _). destruct r; simpl in HL; [auto|lia].
  - rewrite bind_ok. split.
    + intros (y & Hy & H). apply bind_ok in H. destruct H as (ys & Hys & H). inversion H; subst; clear H.
      apply IH in Hys. destruct Hys as [HL H]. split; [simpl; lia|].
      intros [|i] a Hi.
      * cbv [get nth_error] in *. congruence.
      * rewrite get_cons_S in *. auto.
    + intros (HL & H). destruct r as [|y r]; simpl in HL; [lia|].
      exists y. split.
      * exact (H 0 x eq_refl).
      * rewrite bind_ok. exists r. split; auto. apply IH. split; [lia|].
        intros i a Hi. specialize (H (S i) a). rewrite !get_cons_S in H. auto.
Qed.

(** *** Words: [w]-bit patterns are the integers [0 <= x < 2^w]. *)
Open Scope Z_scope.
Definition wrap (w x : Z) : Z := x mod 2 ^ w.
(** Two's complement reading of a [w]-bit pattern. *)
Definition sgn (w x : Z) : Z := if x <? 2 ^ (w - 1) then x else x - 2 ^ w.
Definition word (w x : Z) : Prop := 0 <= x < 2 ^ w.

Lemma pow2_pos w : 0 <= w -> 0 < 2 ^ w.
Proof. intros; apply Z.pow_pos_nonneg; lia. Qed.
Lemma pow2_pred w : 0 < w -> 2 ^ w = 2 * 2 ^ (w - 1).
Proof. intros. rewrite <- Z.pow_succ_r by lia. f_equal; lia. Qed.
Lemma wrap_word w x : 0 <= w -> word w (wrap w x).
Proof. intros. unfold word, wrap. apply Z.mod_pos_bound. apply pow2_pos; auto. Qed.
Lemma wrap_id w x : word w x -> wrap w x = x.
Proof. unfold word, wrap. intros. apply Z.mod_small; auto. Qed.
Lemma sgn_range w x : 0 < w -> word w x -> - 2 ^ (w - 1) <= sgn w x < 2 ^ (w - 1).
Proof.
  unfold word, sgn. intros Hw H. rewrite (pow2_pred w Hw) in *.
  destruct (Z.ltb_spec x (2 ^ (w - 1))); lia.
Qed.
Lemma wrap_sgn w x : 0 < w -> word w x -> wrap w (sgn w x) = x.
Proof.
  unfold word, sgn, wrap. intros Hw H.
  destruct (Z.ltb_spec x (2 ^ (w - 1))).
  - apply Z.mod_small; auto.
  - replace (x - 2 ^ w) with (x + (-1) * 2 ^ w) by lia.
    rewrite Z.mod_add by (pose proof (pow2_pos w); lia). apply Z.mod_small; auto.
Qed.
Lemma sgn_wrap w x : 0 < w -> - 2 ^ (w - 1) <= x < 2 ^ (w - 1) -> sgn w (wrap w x) = x.
Proof.
  unfold sgn, wrap. intros Hw H. pose proof (pow2_pred w Hw). pose proof (pow2_pos (w - 1)).
  destruct (Z.ltb_spec x 0).
  - assert (E : x mod 2 ^ w = x + 2 ^ w).
    { symmetry; apply Z.mod_unique with (-1); lia. }
    rewrite E. destruct (Z.ltb_spec (x + 2 ^ w) (2 ^ (w - 1))); lia.
  - rewrite Z.mod_small by lia. destruct (Z.ltb_spec x (2 ^ (w - 1))); lia.
Qed.
Lemma wrap_wrap_le w v x : 0 <= w <= v -> wrap w (wrap v x) = wrap w x.
Proof.
  intros. unfold wrap. symmetry. apply Znumtheory.Zmod_div_mod.
  - apply pow2_pos; lia.
  - apply pow2_pos; lia.
  - exists (2 ^ (v - w)). rewrite <- Z.pow_add_r by lia. f_equal; lia.
Qed.
Lemma sgn_mod w x : 0 < w -> exists k, sgn w x = x + k * 2 ^ w.
Proof.
  intros. unfold sgn. destruct (x <? 2 ^ (w - 1)).
  - exists 0; lia.
  - exists (-1); lia.
Qed.
Close Scope Z_scope.
