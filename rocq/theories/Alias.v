(** Element references: /repo/dpm/detail/alias.hpp (basic_mask, what m[i] returns on the x86 backend; v[i] is a plain
    aliasing reference to the lane) with operator[] of /repo/dpm/detail/x86/type.hpp 167-177, 690-700. *)
From Coq Require Import ZifyBool ZifyNat.
From Verif Require Import Base Cxx Spec Generic X86Vec X86 X86Lemmas X86Proofs X86Ops X86Mem.
Set Implicit Arguments.

(** Writes through the reference: [=] alias.hpp 26-27, [|=] 28-29, [&=] 30-31, [^=] 32-33; the operand is extended to
    all zeros / all ones (extend_bool, utility.hpp 149) of the signed integer of the lane's size. *)
Inductive ref_op := RSet | ROr | RAnd | RXor.
Definition ref_write (w : Z) (o : ref_op) (v : Z) (b : bool) : Z :=
  match o with
  | RSet => mlane w b
  | ROr => Z.lor v (mlane w b)
  | RAnd => Z.land v (mlane w b)
  | RXor => Z.lxor v (mlane w b)
  end.
(** Reads: conversion to bool 24; [~] 35 ([return ~_value;], true unless the lane is all ones); [|] 36-37, [&] 38-39,
    [^] 40-41 (the integer result converted to bool). *)
Definition ref_read (v : Z) : bool := negb (v =? 0)%Z.
Definition ref_compl (w : Z) (v : Z) : bool := negb (v =? ones w)%Z.
Definition ref_bin (w : Z) (o : ref_op) (v : Z) (b : bool) : bool := negb (ref_write w o v b =? 0)%Z.
(** m[i] op= b *)
Definition mask_ref (X : xty) (o : ref_op) (m : list vec) (i : nat) (b : bool) : res (list vec) :=
  v <- xget X m i;; xset X m i (ref_write (xw X) o v b).
(** swap(m[i], m[j]): 43, std::swap of the lanes; swap(bool&, m[i]): 44-45 *)
Definition mask_swap (X : xty) (m : list vec) (i j : nat) : res (list vec) :=
  a <- xget X m i;; b <- xget X m j;; m1 <- xset X m i b;; xset X m1 j a.
Definition mask_swap_bool (X : xty) (m : list vec) (i : nat) (a : bool) : res (list vec * bool) :=
  v <- xget X m i;; m' <- xset X m i (mlane (xw X) a);; Ok (m', negb (v =? 0)%Z).
(** A history of writes. *)
Fixpoint mask_refs (X : xty) (h : list (ref_op * nat * bool)) (m : list vec) : res (list vec) :=
  match h with
  | [] => Ok m
  | (o, i, b) :: h' => m' <- mask_ref X o m i b;; mask_refs X h' m'
  end.
Fixpoint simd_refs (X : xty) (h : list (nat * Z)) (x : list vec) : res (list vec) :=
  match h with
  | [] => Ok x
  | (i, v) :: h' => x' <- xset X x i v;; simd_refs X h' x'
  end.

(** *** Specification: the same history on a list of booleans *)
Definition bool_op (o : ref_op) (a b : bool) : bool :=
  match o with RSet => b | ROr => a || b | RAnd => a && b | RXor => xorb a b end.
Definition upd {A} (l : list A) (i : nat) (f : A -> A) : list A :=
  match nth_error l i with Some x => firstn i l ++ f x :: skipn (S i) l | None => l end.
Fixpoint bool_refs (h : list (ref_op * nat * bool)) (l : list bool) : list bool :=
  match h with [] => l | (o, i, b) :: h' => bool_refs h' (upd l i (fun a => bool_op o a b)) end.
Fixpoint val_refs (h : list (nat * Z)) (l : list Z) : list Z :=
  match h with [] => l | (i, v) :: h' => val_refs h' (upd l i (fun _ => v)) end.

(** Lanes 0 / all ones: what every constructor, comparison and mask operator produces. *)
Definition canonical (X : xty) (m : list vec) : Prop :=
  forall i l, nth_error (elems X m) i = Some l -> l = 0%Z \/ l = ones (xw X).

Lemma upd_length {A} (l : list A) i f : length (upd l i f) = length l.
Proof.
  unfold upd. destruct (nth_error l i) eqn:E; auto. assert (i < length l) by (apply nth_error_Some; congruence).
  rewrite app_length, firstn_length. cbn [length]. rewrite skipn_length. lia.
Qed.
Lemma nth_error_upd {A} (l : list A) i f j :
  nth_error (upd l i f) j = if j =? i then option_map f (nth_error l j) else nth_error l j.
Proof.
  unfold upd. destruct (nth_error l i) eqn:E.
  - assert (L : i < length l) by (apply nth_error_Some; congruence).
    assert (LF : length (firstn i l) = i) by (rewrite firstn_length; lia).
    destruct (Nat.eqb_spec j i) as [->|Hne].
    + rewrite nth_error_app2 by lia. rewrite LF, Nat.sub_diag, E. reflexivity.
    + destruct (Nat.lt_ge_cases j i).
      * rewrite nth_error_app1 by lia. rewrite <- (firstn_skipn i l) at 2. rewrite nth_error_app1 by lia. auto.
      * rewrite nth_error_app2 by lia. rewrite LF. replace (j - i) with (S (j - S i)) by lia. cbn [nth_error].
        rewrite <- (firstn_skipn (S i) l) at 2. rewrite nth_error_app2; rewrite firstn_length; [f_equal; lia|lia].
  - destruct (Nat.eqb_spec j i) as [->|]; auto. rewrite E. reflexivity.
Qed.
Lemma set_upd {A} (l : list A) i v l' : set l i v = Ok l' -> l' = upd l i (fun _ => v).
Proof.
  intros H. apply set_ok_iff in H. destruct H as (H1 & H2 & H3 & H4). apply list_get_ext; [rewrite upd_length; auto|].
  intros j Hj. apply res_ext. intros y. rewrite !get_ok, nth_error_upd. destruct (Nat.eqb_spec j i) as [->|Hne].
  - apply get_ok in H3. rewrite H3. destruct (nth_error l i) eqn:E; [reflexivity|]. apply nth_error_None in E. lia.
  - specialize (H4 j Hne). rewrite <- !get_ok, H4. reflexivity.
Qed.
Lemma map_upd {A B} (g : A -> B) (l : list A) i f f' : (forall x, nth_error l i = Some x -> g (f x) = f' (g x)) ->
  map g (upd l i f) = upd (map g l) i f'.
Proof.
  intros H. apply list_get_ext; [rewrite map_length, !upd_length, map_length; auto|].
  intros j Hj. apply res_ext. intros y. rewrite !get_ok, nth_error_upd, !nth_error_map, nth_error_upd.
  destruct (Nat.eqb_spec j i) as [->|]; [|reflexivity]. destruct (nth_error l i) eqn:E; cbn; [|reflexivity]. rewrite (H _ eq_refl). reflexivity.
Qed.

Section WF.
Context (X : xty) (HX : xty_ok X).
Let w := xw X.
Lemma set_firstn {A} (l l' : list A) n i v : i < n -> set l i v = Ok l' -> set (firstn n l) i v = Ok (firstn n l').
Proof.
  intros Hi H. apply set_ok_iff in H. destruct H as (H1 & H2 & H3 & H4). apply set_ok_iff. rewrite !firstn_length. repeat split; try lia.
  - rewrite get_firstn by lia. auto.
  - intros j Hj. destruct (Nat.lt_ge_cases j n); [rewrite !get_firstn by lia; auto|].
    rewrite !(proj2 (get_ub _ _)); auto; rewrite firstn_length; lia.
Qed.
Lemma xset_elems x i v : shaped X x -> i < xN X -> word w v ->
  exists x', xset X x i v = Ok x' /\ shaped X x' /\ elems X x' = upd (elems X x) i (fun _ => v).
Proof.
  intros Hx Hi Hv. destruct (@xset_concat X HX x i v) as (x' & E & S & C); auto.
  { pose proof (N_le_M HX). lia. }
  exists x'. split; auto. split; auto. apply set_upd. unfold elems. apply set_firstn; auto.
Qed.
Lemma nth_elems x i : shaped X x -> i < xN X -> exists v, xget X x i = Ok v /\ nth_error (elems X x) i = Some v /\ word w v.
Proof.
  intros Hx Hi. rewrite xget_elems by auto. destruct (nth_error (elems X x) i) as [v|] eqn:E.
  - exists v. split; [apply get_ok; auto|]. split; auto. eapply words_In; [apply (elems_words Hx)|eapply nth_error_In; eauto].
  - apply nth_error_None in E. rewrite elems_length in E by auto. lia.
Qed.
Lemma simd_refs_ok h : forall x, shaped X x -> (forall i v, In (i, v) h -> i < xN X /\ word w v) ->
  exists x', simd_refs X h x = Ok x' /\ shaped X x' /\ elems X x' = val_refs h (elems X x).
Proof.
  induction h as [|[i v] h IH]; intros x Hx Hh; [exists x; auto|].
  destruct (Hh i v (or_introl eq_refl)) as [Hi Hv]. destruct (xset_elems Hx Hi Hv) as (x1 & E1 & S1 & C1).
  destruct (IH x1 S1) as (x2 & E2 & S2 & C2); [intros; apply Hh; right; auto|].
  exists x2. cbn [simd_refs val_refs]. rewrite E1. cbn [bind]. rewrite <- C1. auto.
Qed.

Lemma ref_write_word o v b : word w v -> word w (ref_write w o v b).
Proof.
  intros Hv. pose proof (w_pos HX) as Hw. fold w in Hw. assert (HM : word w (mlane w b)) by (apply word_mlane; lia).
  destruct o; cbn [ref_write]; auto; [apply word_lor|apply word_land|apply word_lxor]; auto; lia.
Qed.
Lemma ref_write_nz o v b : word w v -> o <> RXor \/ v = 0%Z \/ v = ones w ->
  negb (ref_write w o v b =? 0)%Z = bool_op o (negb (v =? 0)%Z) b.
Proof.
  intros Hv H. pose proof (w_pos HX) as Hw. fold w in Hw. destruct o; cbn [ref_write bool_op].
  - apply mlane_nz. lia.
  - destruct b; cbn [mlane].
    + rewrite lor_ones_word by (auto; lia). rewrite orb_true_r. change (ones w) with (mlane w true). apply mlane_nz; lia.
    + rewrite Z.lor_0_r, orb_false_r. auto.
  - destruct b; cbn [mlane].
    + rewrite land_ones_word by (auto; lia). rewrite andb_true_r. auto.
    + rewrite Z.land_0_r, andb_false_r. auto.
  - destruct H as [H|H]; [congruence|]. assert (E : exists c, v = mlane w c) by (destruct H as [-> | ->]; [exists false|exists true]; auto).
    destruct E as [c ->]. rewrite lxor_mlane by lia. rewrite !mlane_nz by lia. auto.
Qed.
Lemma mask_ref_ok o m i b : shaped X m -> i < xN X ->
  exists m' v, mask_ref X o m i b = Ok m' /\ shaped X m' /\ nth_error (elems X m) i = Some v /\ word w v /\
    elems X m' = upd (elems X m) i (fun _ => ref_write w o v b).
Proof.
  intros Hm Hi. destruct (nth_elems Hm Hi) as (v & G & Nv & Wv). unfold mask_ref. rewrite G. cbn [bind].
  destruct (@xset_elems m i (ref_write w o v b)) as (m' & E & S & C); auto using ref_write_word.
  exists m', v. auto 10.
Qed.
Lemma mask_refs_ok (P : Z -> Prop) h : (P 0%Z /\ P (ones w)) ->
  (forall o i b v, In (o, i, b) h -> P v -> word w v -> P (ref_write w o v b) /\ (o <> RXor \/ v = 0%Z \/ v = ones w)) ->
  forall m, shaped X m -> (forall i l, nth_error (elems X m) i = Some l -> P l) ->
  (forall o i b, In (o, i, b) h -> i < xN X) ->
  exists m', mask_refs X h m = Ok m' /\ shaped X m' /\ (forall i l, nth_error (elems X m') i = Some l -> P l) /\
    mask_elems X m' = bool_refs h (mask_elems X m).
Proof.
  intros HP. induction h as [|[[o i] b] h IH]; intros HO m Hm HPm Hh; [exists m; auto|].
  destruct (@mask_ref_ok o m i b Hm) as (m1 & v & E1 & S1 & Nv & Wv & C1); [eapply Hh; left; reflexivity|].
  destruct (HO o i b v (or_introl eq_refl) (HPm _ _ Nv) Wv) as [HPw Hx].
  destruct (IH ltac:(intros; eapply HO; [right; eassumption|auto|auto]) m1 S1) as (m2 & E2 & S2 & P2 & C2).
  - intros j l Hl. rewrite C1, nth_error_upd in Hl. destruct (Nat.eqb_spec j i) as [->|]; [|eauto].
    rewrite Nv in Hl. cbn in Hl. inversion Hl; subst; auto.
  - intros; eapply Hh; right; eassumption.
  - exists m2. cbn [mask_refs bool_refs]. rewrite E1. cbn [bind]. split; auto. split; auto. split; auto. rewrite C2. f_equal.
    unfold mask_elems. rewrite C1. apply map_upd. intros x Hx'. rewrite Nv in Hx'. inversion Hx'; subst x. apply ref_write_nz; auto.
Qed.
Lemma mask_refs_canonical h m : shaped X m -> canonical X m -> (forall o i b, In (o, i, b) h -> i < xN X) ->
  exists m', mask_refs X h m = Ok m' /\ shaped X m' /\ canonical X m' /\ mask_elems X m' = bool_refs h (mask_elems X m).
Proof.
  intros Hm Hc Hh. apply (@mask_refs_ok (fun l => l = 0%Z \/ l = ones w)); auto.
  intros o i b v _ Hv Wv. split; auto. pose proof (w_pos HX) as Hw. fold w in Hw.
  assert (E : exists c, v = mlane w c) by (destruct Hv as [-> | ->]; [exists false|exists true]; auto).
  destruct E as [c ->]. assert (K : forall c, mlane w c = 0%Z \/ mlane w c = ones w) by (intros []; auto).
  destruct o; cbn [ref_write]; rewrite ?lor_mlane, ?land_mlane, ?lxor_mlane by lia; apply K.
Qed.
Lemma mask_refs_any h m : shaped X m -> (forall o i b, In (o, i, b) h -> i < xN X /\ o <> RXor) ->
  exists m', mask_refs X h m = Ok m' /\ shaped X m' /\ mask_elems X m' = bool_refs h (mask_elems X m).
Proof.
  intros Hm Hh. destruct (@mask_refs_ok (fun _ => True) h) with (m := m) as (m' & ? & ? & _ & ?); auto.
  - intros o i b v Hin _ _. split; auto. left. eapply Hh; eauto.
  - intros. eapply Hh; eauto.
  - eauto.
Qed.
(** Reads through the reference. *)
Lemma ref_reads c b : ref_read (mlane w c) = c /\ ref_compl w (mlane w c) = negb c /\
  ref_bin w ROr (mlane w c) b = c || b /\ ref_bin w RAnd (mlane w c) b = c && b /\ ref_bin w RXor (mlane w c) b = xorb c b.
Proof.
  pose proof (w_pos HX) as Hw. fold w in Hw. unfold ref_read, ref_compl, ref_bin, ref_write.
  rewrite lor_mlane, land_mlane, lxor_mlane by lia. rewrite !mlane_nz by lia. repeat split; auto.
  change (ones w) with (mlane w true). rewrite mlane_inj by lia. destruct c; auto.
Qed.
Lemma ref_reads_any v b : word w v -> ref_read v = negb (v =? 0)%Z /\
  ref_bin w ROr v b = ref_read v || b /\ ref_bin w RAnd v b = ref_read v && b.
Proof.
  intros Hv. split; auto. unfold ref_bin. rewrite !ref_write_nz by (auto; left; congruence). auto.
Qed.
Lemma mask_swap_ok m i j : shaped X m -> i < xN X -> j < xN X ->
  exists m' vi vj, mask_swap X m i j = Ok m' /\ shaped X m' /\ nth_error (elems X m) i = Some vi /\ nth_error (elems X m) j = Some vj /\
    elems X m' = upd (upd (elems X m) i (fun _ => vj)) j (fun _ => vi).
Proof.
  intros Hm Hi Hj. destruct (nth_elems Hm Hi) as (vi & Gi & Ni & Wi). destruct (nth_elems Hm Hj) as (vj & Gj & Nj & Wj).
  unfold mask_swap. rewrite Gi, Gj. cbn [bind]. destruct (xset_elems Hm Hi Wj) as (m1 & E1 & S1 & C1). rewrite E1. cbn [bind].
  destruct (xset_elems S1 Hj Wi) as (m2 & E2 & S2 & C2). exists m2, vi, vj. rewrite <- C1. auto 10.
Qed.
Lemma mask_swap_bool_ok m i a : shaped X m -> i < xN X ->
  exists m', mask_swap_bool X m i a = Ok (m', nth i (mask_elems X m) false) /\ shaped X m' /\
    mask_elems X m' = upd (mask_elems X m) i (fun _ => a).
Proof.
  intros Hm Hi. destruct (nth_elems Hm Hi) as (v & G & Nv & Wv). unfold mask_swap_bool. rewrite G. cbn [bind].
  pose proof (w_pos HX) as Hw. fold w in Hw.
  destruct (@xset_elems m i (mlane w a)) as (m1 & E1 & S1 & C1); auto; [apply word_mlane; lia|]. fold w. rewrite E1. cbn [bind]. exists m1. split; [f_equal; f_equal; unfold mask_elems|].
  - symmetry. apply nth_error_nth. rewrite nth_error_map, Nv. auto.
  - split; auto. unfold mask_elems. rewrite C1. apply map_upd. intros. apply mlane_nz. lia.
Qed.
Lemma mask_swap_bool_elems m i a : shaped X m -> i < xN X ->
  exists m', mask_swap_bool X m i a = Ok (m', nth i (mask_elems X m) false) /\ shaped X m' /\
    (forall b j, nth_error (elems X m) j = Some (mlane w b) -> j <> i -> nth_error (elems X m') j = Some (mlane w b)) /\
    nth_error (elems X m') i = Some (mlane w a) /\
    mask_elems X m' = upd (mask_elems X m) i (fun _ => a).
Proof.
  intros Hm Hi. destruct (nth_elems Hm Hi) as (v & G & Nv & Wv). destruct (mask_swap_bool_ok a Hm Hi) as (m' & E & S & C). exists m'. split; [exact E|]. split; [exact S|].
  unfold mask_swap_bool in E. rewrite G in E. cbn [bind] in E. pose proof (w_pos HX) as Hw. fold w in Hw.
  destruct (@xset_elems m i (mlane w a)) as (m1 & E1 & S1 & C1); auto; [apply word_mlane; lia|]. fold w in E. rewrite E1 in E. cbn [bind] in E. injection E as <- _.
  rewrite C1. split; [|split; auto].
  - intros b j Hj Hne. rewrite nth_error_upd. destruct (Nat.eqb_spec j i); [congruence|]; auto.
  - rewrite nth_error_upd, Nat.eqb_refl, Nv. reflexivity.
Qed.
End WF.

(** [~m[i]] and [m[i] ^ true] on a true lane that is not all ones (e.g. an element of signbit(x)). *)
Lemma ref_noncanonical : ref_read (2 ^ 31) = true /\ ref_compl 32 (2 ^ 31) = true /\ ref_bin 32 RXor (2 ^ 31) true = true.
Proof. repeat split. Qed.
