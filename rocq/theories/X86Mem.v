(** Proofs about the x86 backend, part 4: element access, constructors, loads and stores, operators that go through memory. *)
From Coq Require Import ZifyBool ZifyNat.
From Verif Require Import Base Cxx Spec Generic GenericProofs X86Vec X86 X86Lemmas X86Proofs X86Ops.
Set Implicit Arguments.

(** An invariant of every successful loop. *)
Lemma for_n_ok_inv {S} (P : S -> Prop) n : forall i (b : nat -> S -> res S) s r, P s ->
  (forall j t t', i <= j < i + n -> P t -> b j t = Ok t' -> P t') -> for_n n i b s = Ok r -> P r.
Proof.
  induction n as [|n IH]; intros i b s r Hs Hb H; simpl in H.
  - inversion H; subst; auto.
  - apply bind_ok in H. destruct H as (t & Ht & H). eapply (IH (Datatypes.S i)); [|  |exact H].
    + eapply Hb; [|exact Hs|exact Ht]. lia.
    + intros j u u' Hj. apply Hb. lia.
Qed.
Lemma for_up_ok_inv {S} (P : S -> Prop) lo hi (b : nat -> S -> res S) s r : P s ->
  (forall j t t', lo <= j < hi -> P t -> b j t = Ok t' -> P t') -> for_up lo hi b s = Ok r -> P r.
Proof. intros Hs Hb H. eapply for_n_ok_inv; [exact Hs| |exact H]. intros j t t' Hj. apply Hb. lia. Qed.
Lemma for_up_empty {S} lo hi (b : nat -> S -> res S) s : hi <= lo -> for_up lo hi b s = Ok s.
Proof. intros H. unfold for_up. replace (hi - lo) with 0 by lia. reflexivity. Qed.

Section WF.
Context (X : xty) (HX : xty_ok X).
Let w := xw X.
Let e := ext X.
Let M := dsz X * ext X.
Lemma e_pos : 0 < e. Proof. apply ext_pos; auto. Qed.
Lemma N_le_M : xN X <= M. Proof. apply dsz_spec; auto. Qed.
Lemma N_pos : 0 < xN X. Proof. destruct HX as (_ & _ & H & _). lia. Qed.
Lemma idx_lt i : i < M -> i / e < dsz X.
Proof. intros H. apply Nat.div_lt_upper_bound; [pose proof e_pos; lia|]. unfold M in H. fold e in H. lia. Qed.
Lemma idx_mod i : i mod e < e.
Proof. apply Nat.mod_upper_bound. pose proof e_pos; lia. Qed.
Lemma idx_inj i j : i / e = j / e -> i mod e = j mod e -> i = j.
Proof.
  intros H1 H2. pose proof e_pos. rewrite (Nat.div_mod i e), (Nat.div_mod j e) by lia. congruence.
Qed.
Lemma concat_len d : shaped X d -> length (concat d) = M.
Proof. intros H. apply concat_shaped in H. apply H. Qed.

(** operator[] as an lvalue *)
Lemma xset_concat d i l : shaped X d -> word w l -> i < M ->
  exists d', xset X d i l = Ok d' /\ shaped X d' /\ set (concat d) i l = Ok (concat d').
Proof.
  intros Hd Hl Hi. pose proof (idx_lt Hi) as H1. pose proof (idx_mod i) as H2.
  destruct (get_shaped Hd H1) as (v & Gv & Lv & Wv).
  destruct (set_lt_ok v (i mod e) l) as [v' Sv]; [rewrite Lv; exact H2|].
  destruct (set_lt_ok d (i / e) v') as [d' Sd]; [destruct Hd as [-> _]; exact H1|].
  assert (Wv' : wfv X v').
  { split; [rewrite (set_length _ _ _ _ Sv); auto|]. apply set_ok_iff in Sv. destruct Sv as (_ & L & G & O).
    apply Forall_forall. intros x Hx. apply In_nth_error in Hx. destruct Hx as [k Hk]. apply get_ok in Hk.
    destruct (Nat.eq_dec k (i mod e)) as [->|Hne].
    - rewrite G in Hk. inversion Hk; subst; auto.
    - rewrite O in Hk by auto. eapply words_get; eauto. }
  assert (Sh : shaped X d').
  { split; [rewrite (set_length _ _ _ _ Sd); apply Hd|]. apply set_ok_iff in Sd. destruct Sd as (_ & L & G & O).
    apply Forall_forall. intros x Hx. apply In_nth_error in Hx. destruct Hx as [k Hk]. apply get_ok in Hk.
    destruct (Nat.eq_dec k (i / e)) as [->|Hne].
    - rewrite G in Hk. inversion Hk; subst; auto.
    - rewrite O in Hk by auto. eapply shaped_get; eauto. }
  exists d'. split; [|split; auto].
  - unfold xset. fold e. rewrite Gv. cbn [bind]. rewrite Sv. cbn [bind]. exact Sd.
  - apply set_ok_iff. rewrite !concat_len by auto. repeat split; auto.
    + rewrite (@get_concat _ d' e) by (auto using e_pos; apply shaped_len; auto).
      apply set_ok_iff in Sd, Sv. destruct Sd as (_ & _ & -> & _). cbn [bind]. apply Sv.
    + intros j Hj. rewrite !(@get_concat _ _ e) by (auto using e_pos; apply shaped_len; auto).
      apply set_ok_iff in Sd, Sv. destruct Sd as (_ & _ & Gd & Od). destruct Sv as (_ & _ & _ & Ov).
      destruct (Nat.eq_dec (j / e) (i / e)) as [E|E]; [|rewrite Od by auto; auto].
      rewrite E, Gd, Gv. cbn [bind]. apply Ov. intros E'. apply Hj. apply idx_inj; auto.
Qed.

(** The element loop [for (i = 0; i < n; ++i) operator[](i) = f(i)] is [fill] on the flat array of lanes. *)
Lemma xloop (f : nat -> res Z) n d : shaped X d -> n <= M -> (forall i v, i < n -> f i = Ok v -> word w v) ->
  match fill n f (concat d) with
  | Ok c => exists d', for_up 0 n (fun i d => v <- f i;; xset X d i v) d = Ok d' /\ shaped X d' /\ concat d' = c
  | UB => for_up 0 n (fun i d => v <- f i;; xset X d i v) d = UB
  end.
Proof.
  intros Hd. induction n as [|n IH]; intros Hn Hf.
  - unfold fill. rewrite !for_up_empty by lia. exists d. auto.
  - unfold fill in *. replace (S n) with (n + 1) by lia. rewrite !for_up_snoc.
    specialize (IH ltac:(lia) ltac:(intros i v Hi Ev; apply (Hf i v); [lia|exact Ev])).
    destruct (for_up 0 n (fun i r => v <- f i;; set r i v) (concat d)) as [c|].
    + destruct IH as (d' & E & Sh & C). rewrite E. cbn [bind]. destruct (f n) as [v|] eqn:Ef; cbn [bind]; auto.
      destruct (@xset_concat d' n v) as (d2 & E2 & S2 & C2); auto; [apply (Hf n v); [lia|exact Ef]|].
      subst c. rewrite C2, E2. eauto.
    + rewrite IH. reflexivity.
Qed.
Lemma concat_firstn_set d : shaped X d -> elems X d = firstn (xN X) (concat d).
Proof. reflexivity. Qed.

(** *** C22: element path of copy_from / copy_to equals the generic backend's copy loop *)
Lemma copy_from_elem (conv : Z -> res Z) mem p d d0 : shaped X d -> length d0 = xN X ->
  (forall x v, In x mem -> conv x = Ok v -> word w v) ->
  match x_copy_from X conv false mem p d with
  | Ok d' => shaped X d' /\ copy_from conv (xN X) mem p d0 = Ok (elems X d')
  | UB => copy_from conv (xN X) mem p d0 = UB
  end.
Proof.
  intros Hd Hd0 Hw. unfold x_copy_from. cbn [bind]. cbv zeta.
  set (f := fun i => x <- get mem (p + i);; conv x).
  rewrite (for_up_ext 0 (xN X) _ (fun i d => v <- f i;; xset X d i v)) by (intros; unfold f; rewrite bind_assoc; auto).
  assert (Hf : forall i v, i < xN X -> f i = Ok v -> word w v).
  { intros i v Hi H. unfold f in H. apply bind_ok in H. destruct H as (x & Gx & Cx). eapply Hw; [|exact Cx].
    apply get_ok in Gx. eapply nth_error_In; eauto. }
  pose proof (xloop f Hd N_le_M Hf) as XL. rewrite copy_from_fill. change (fun i => x <- get mem (p + i);; conv x) with f. clearbody f.
  assert (FC : fill (xN X) f (concat d) = UB <-> fill (xN X) f d0 = UB).
  { rewrite !fill_ub_iff; try tauto; [lia|]. rewrite concat_len by auto. apply N_le_M. }
  destruct (fill (xN X) f (concat d)) as [c|] eqn:Fc.
  - destruct XL as (d' & -> & Sh & C). split; auto. pose proof N_le_M.
    apply fill_ok_iff in Fc; [|rewrite concat_len; auto]. destruct Fc as (L & G & _).
    apply fill_ok_iff; [lia|]. rewrite elems_length by auto. split; auto. split.
    + intros i Hi. rewrite G by auto. unfold elems. rewrite get_firstn, C; auto.
    + intros i Hi. rewrite !(proj2 (get_ub _ _)); auto; rewrite ?elems_length; auto; lia.
  - rewrite XL. apply FC. auto.
Qed.
Lemma copy_to_elem (conv : Z -> res Z) d mem p : shaped X d ->
  x_copy_to X conv false d mem p = copy_to conv (xN X) (elems X d) mem p.
Proof.
  intros Hd. unfold x_copy_to, copy_to. cbn [bind]. cbv zeta. apply for_up_ext. intros j t Hj.
  rewrite xget_elems by (auto; lia). rewrite bind_assoc. auto.
Qed.

(** *** Whole-register path *)
Lemma load_vec_ok mem p : p + e <= length mem -> load_vec X mem p = Ok (firstn e (skipn p mem)).
Proof.
  intros H. apply mapM_ok_iff. rewrite seq_length, firstn_length, skipn_length. fold e. split; [lia|].
  intros i a Hi. pose proof (get_ok_lt _ _ _ Hi) as L. rewrite seq_length in L. fold e in L.
  rewrite get_seq in Hi by auto. inversion Hi; subst. rewrite get_firstn, get_skipn; auto.
Qed.
Lemma load_vec_ub mem p : length mem < p + e -> load_vec X mem p = UB.
Proof.
  intros H. destruct (load_vec X mem p) eqn:E; auto. apply mapM_ok_iff in E. rewrite seq_length in E. fold e in E. destruct E as [L G].
  pose proof e_pos. specialize (G (e - 1) (p + (e - 1))). rewrite get_seq in G by (fold e; lia). specialize (G eq_refl).
  rewrite (proj2 (get_ub mem _)) in G by lia. symmetry in G. apply get_ub in G. lia.
Qed.
Lemma get_load (mem : list Z) (p i : nat) : i < M -> p + M <= length mem ->
  get (firstn M (skipn p mem)) i = get mem (p + i).
Proof. intros. rewrite get_firstn, get_skipn by auto. auto. Qed.
Lemma dsz_mul j : j < dsz X -> j * e + e <= M.
Proof. intros H. unfold M. fold e. nia. Qed.
Lemma copy_from_vec mem p d : shaped X d -> words w mem -> p + M <= length mem ->
  exists d', x_copy_from X Ok true mem p d = Ok d' /\ shaped X d' /\ concat d' = firstn M (skipn p mem).
Proof.
  intros Hd Hm HM. unfold x_copy_from. pose proof N_le_M.
  destruct (for_up_inv (fun j (t : list vec) => length t = dsz X /\ (forall i, i < j -> get t i = Ok (firstn e (skipn (p + i * e) mem))))
     0 (dsz X) (fun j d => v <- load_vec X mem (p + j * ext X);; set d j v) d) as (d' & E & L & G).
  - lia.
  - split; [apply Hd|lia].
  - intros j t Hj [L G]. pose proof (@dsz_mul j ltac:(lia)). fold e. rewrite load_vec_ok by lia. cbn [bind].
    destruct (set_lt_ok t j (firstn e (skipn (p + j * e) mem))) as [r Hr]; [lia|]. exists r. split; auto.
    apply set_ok_iff in Hr. destruct Hr as (_ & L' & G' & O). split; [lia|]. intros i Hi.
    destruct (Nat.eq_dec i j) as [->|]; auto. rewrite O by auto. apply G. lia.
  - rewrite E. cbn [bind]. cbv zeta. rewrite for_up_empty by (unfold M in *; lia). exists d'. split; auto.
    assert (Sh : shaped X d').
    { split; auto. apply Forall_forall. intros v Hv. apply In_nth_error in Hv. destruct Hv as [k Hk]. apply get_ok in Hk.
      pose proof (get_ok_lt _ _ _ Hk). rewrite G in Hk by lia. inversion Hk; subst. pose proof (@dsz_mul k ltac:(lia)). split.
      - rewrite firstn_length, skipn_length. fold e. lia.
      - apply words_firstn, words_skipn; auto. }
    split; auto. apply list_get_ext; [rewrite concat_len, firstn_length, skipn_length; auto; lia|].
    rewrite concat_len by auto. intros i Hi. rewrite get_load by auto.
    rewrite (@get_concat _ d' e) by (auto using e_pos; apply shaped_len; auto).
    rewrite G by (apply idx_lt; auto). cbn [bind]. pose proof (idx_mod i). rewrite get_firstn, get_skipn by auto.
    f_equal. pose proof e_pos. pose proof (Nat.div_mod i e ltac:(lia)). lia.
Qed.
Lemma M_last : M = (dsz X - 1) * e + e.
Proof. unfold M. fold e. destruct (dsz_spec HX) as (_ & _ & H). destruct (dsz X); [lia|]. simpl. rewrite Nat.sub_0_r. lia. Qed.
Lemma copy_from_vec_ub mem p d : length mem < p + M -> x_copy_from X Ok true mem p d = UB.
Proof.
  intros HM. unfold x_copy_from. rewrite M_last in HM. destruct (dsz_spec HX) as (_ & _ & HD).
  replace (dsz X) with (dsz X - 1 + 1) at 1 by lia. rewrite for_up_snoc.
  destruct (for_up 0 (dsz X - 1) _ d); auto. cbn [bind]. fold e. rewrite load_vec_ub by lia. reflexivity.
Qed.

Lemma store_vec_copy (mem : list Z) p (v : vec) : store_vec X mem p v = copy_to Ok e v mem p.
Proof. unfold store_vec, copy_to. apply for_up_ext. intros j t Hj. rewrite bind_ret. auto. Qed.
Lemma store_vec_ok (mem : list Z) p (v : vec) : length v = e -> p + e <= length mem ->
  store_vec X mem p v = Ok (firstn p mem ++ v ++ skipn (p + e) mem).
Proof.
  intros Hv HM. rewrite store_vec_copy. apply copy_to_ok_iff; [lia|lia|].
  assert (L : length (firstn p mem) = p) by (rewrite firstn_length; lia).
  split; [split; [rewrite !app_length, L, skipn_length; lia|]|].
  - intros j Hj. assert (G : get (firstn p mem ++ v ++ skipn (p + e) mem) j = get mem j).
    { destruct Hj as [Hj|Hj].
      - rewrite get_app_l by lia. apply get_firstn; auto.
      - rewrite !get_app_r by lia. rewrite get_skipn. f_equal. lia. }
    unfold get in G. destruct (nth_error _ j), (nth_error mem j); congruence.
  - intros i Hi. rewrite bind_ret, get_app_r by lia. rewrite get_app_l by lia. f_equal. lia.
Qed.
Lemma store_vec_length (mem : list Z) p v mem' : store_vec X mem p v = Ok mem' -> length mem' = length mem.
Proof.
  unfold store_vec. intros H. eapply (@for_up_ok_inv _ (fun t => length t = length mem)); [| |exact H]; auto.
  intros j t t' _ Ht Hb. apply bind_ok in Hb. destruct Hb as (l & _ & Hb). apply set_length in Hb. congruence.
Qed.
Lemma store_vec_ub (mem : list Z) p (v : vec) : length mem < p + e -> store_vec X mem p v = UB.
Proof.
  intros HM. pose proof e_pos. unfold store_vec. fold e. replace e with (e - 1 + 1) by lia. rewrite for_up_snoc.
  destruct (for_up 0 (e - 1) (fun k m => l <- get v k;; set m (p + k) l) mem) as [t|] eqn:E; auto. cbn [bind].
  assert (L : length t = length mem).
  { eapply (@for_up_ok_inv _ (fun t => length t = length mem)); [| |exact E]; auto.
    intros j u u' _ Hu Hb. apply bind_ok in Hb. destruct Hb as (l & _ & Hb). apply set_length in Hb. congruence. }
  destruct (get v (e - 1)); auto. cbn [bind]. apply set_ub. lia.
Qed.
Lemma copy_to_vec d (mem : list Z) p : shaped X d -> p + M <= length mem ->
  x_copy_to X Ok true d mem p = Ok (firstn p mem ++ concat d ++ skipn (p + M) mem).
Proof.
  intros Hd HM. unfold x_copy_to. pose proof N_le_M.
  destruct (for_up_inv (fun j (t : list Z) => t = firstn p mem ++ firstn (j * e) (concat d) ++ skipn (p + j * e) mem)
     0 (dsz X) (fun j m => v <- get d j;; store_vec X m (p + j * ext X) v) mem) as (m' & E & ->).
  - lia.
  - simpl. rewrite Nat.add_0_r, firstn_skipn. auto.
  - intros j t Hj ->. destruct (get_shaped Hd (i := j)) as (v & Gv & Lv & Wv); [lia|]. rewrite Gv. cbn [bind].
    pose proof (@dsz_mul j ltac:(lia)) as HJ. pose proof (concat_len Hd) as LC.
    assert (L1 : length (firstn p mem) = p) by (rewrite firstn_length; lia).
    assert (L2 : length (firstn (j * e) (concat d)) = j * e) by (rewrite firstn_length; lia).
    fold e. rewrite store_vec_ok; [|fold e in Lv; lia|rewrite !app_length, L1, L2, skipn_length; lia].
    eexists. split; [reflexivity|].
    assert (FC : firstn ((j + 1) * e) (concat d) = firstn (j * e) (concat d) ++ v).
    { apply list_get_ext.
      - rewrite app_length, !firstn_length. fold e in Lv. nia.
      - rewrite firstn_length. intros i Hi. rewrite get_firstn by lia.
        destruct (Nat.lt_ge_cases i (j * e)).
        + rewrite get_app_l, get_firstn by lia. auto.
        + rewrite get_app_r, L2 by lia. rewrite (@get_concat _ d e) by (auto using e_pos; apply shaped_len; auto).
          assert (D : i / e = j /\ i mod e = i - j * e).
          { pose proof e_pos. assert (i - j * e < e) by nia.
            assert (Q : i = e * j + (i - j * e)) by lia. split; symmetry;
              [eapply Nat.div_unique; [|exact Q]|eapply Nat.mod_unique; [|exact Q]]; lia. }
          destruct D as [-> ->]. rewrite Gv. reflexivity. }
    rewrite FC. rewrite !app_assoc. f_equal; [f_equal|].
    + rewrite <- (app_assoc (firstn p mem)). apply list_get_ext; [rewrite firstn_length, !app_length, L1, L2, skipn_length; lia|].
      rewrite firstn_length, !app_length, L1, L2, skipn_length. intros i Hi. rewrite get_firstn by lia.
      rewrite app_assoc, get_app_l by (rewrite app_length; lia). auto.
    + rewrite <- !app_assoc. apply list_get_ext.
      * rewrite !skipn_length, !app_length, L1, L2, skipn_length. lia.
      * intros i Hi. rewrite !get_skipn. rewrite !get_app_r by lia. rewrite L1, L2, get_skipn. f_equal. lia.
  - rewrite E. cbn [bind]. cbv zeta. rewrite for_up_empty by (unfold M in *; lia).
    replace (dsz X * e) with M by (unfold M; auto). rewrite (firstn_exact (concat d)) by (apply concat_len; auto). auto.
Qed.
Lemma copy_to_vec_ub d (mem : list Z) p : length mem < p + M -> x_copy_to X Ok true d mem p = UB.
Proof.
  intros HM. unfold x_copy_to. rewrite M_last in HM. destruct (dsz_spec HX) as (_ & _ & HD).
  replace (dsz X) with (dsz X - 1 + 1) at 1 by lia. rewrite for_up_snoc.
  destruct (for_up 0 (dsz X - 1) (fun j m => v <- get d j;; store_vec X m (p + j * ext X) v) mem) as [t|] eqn:E; auto.
  assert (L : length t = length mem).
  { eapply (@for_up_ok_inv _ (fun t => length t = length mem)); [| |exact E]; auto.
    intros j u u' _ Hu Hb. apply bind_ok in Hb. destruct Hb as (l & _ & Hb). apply store_vec_length in Hb. congruence. }
  cbn [bind]. destruct (get d (dsz X - 1)); auto. cbn [bind]. fold e. rewrite store_vec_ub by lia. reflexivity.
Qed.

(** *** Operators that go through memory *)
Definition full : Prop := xN X mod ext X = 0.
Lemma M_full : M = xN X <-> full.
Proof.
  unfold M, full, dsz. pose proof e_pos as He. unfold e in He. pose proof (Nat.div_mod (xN X) (ext X) ltac:(lia)) as D.
  destruct (Nat.eqb_spec (xN X mod ext X) 0) as [E|E].
  - rewrite E in D |- *. split; auto. intros _. lia.
  - split; [|lia]. intros H. pose proof (Nat.mod_upper_bound (xN X) (ext X) ltac:(lia)). lia.
Qed.
Lemma elems_full d : full -> shaped X d -> elems X d = concat d.
Proof. intros H Hd. apply M_full in H. unfold elems. apply firstn_exact. rewrite concat_len; auto. Qed.
Lemma to_packed_full a : full -> shaped X a -> to_packed X a = Ok (elems X a).
Proof.
  intros HF Ha. unfold to_packed. pose proof (proj2 M_full HF) as HM.
  rewrite copy_to_vec by (auto; rewrite repeat_length; lia). cbn [bind]. simpl firstn. cbn [app].
  rewrite skipn_all2 by (rewrite repeat_length; lia). rewrite app_nil_r, <- elems_full by auto.
  rewrite copy_from_id; rewrite ?repeat_length, ?elems_length; auto. cbn [skipn].
  rewrite firstn_exact; auto. apply elems_length; auto.
Qed.
Lemma to_packed_ub a : ~ full -> to_packed X a = UB.
Proof.
  intros HF. unfold to_packed. rewrite copy_to_vec_ub; auto. rewrite repeat_length. pose proof N_le_M.
  assert (M <> xN X) by (intros H'; apply HF, M_full; auto). lia.
Qed.
Lemma of_packed_ok d p : shaped X d -> words w p -> length p = xN X ->
  exists d', of_packed X d p = Ok d' /\ shaped X d' /\ elems X d' = p.
Proof.
  intros Hd Hp HL. unfold of_packed.
  pose proof (@copy_from_elem Ok p 0 d (repeat 0%Z (xN X)) Hd (repeat_length _ _)) as C.
  specialize (C ltac:(intros x v Hx E; inversion E; subst; eapply words_In; eauto)).
  rewrite copy_from_id in C by (rewrite ?repeat_length; auto; lia). cbn [skipn] in C. rewrite firstn_exact in C by auto.
  destruct (x_copy_from X Ok false p 0 d) as [d'|]; [|discriminate]. destruct C as [Sh C]. exists d'. split; auto. split; auto. congruence.
Qed.

Lemma elementwise2_words {A} (f : A -> A -> res Z) a b r : (forall x y v, f x y = Ok v -> word w v) ->
  length a = xN X -> length b = xN X -> elementwise2 (xN X) f a b (Ok r) -> words w r.
Proof.
  intros Hf La Lb [L H]. apply Forall_forall. intros v Hv. apply In_nth_error in Hv. destruct Hv as [i Hi].
  assert (Hl : i < xN X) by (rewrite <- L; apply nth_error_Some; congruence).
  destruct (nth_error a i) as [x|] eqn:Ea; [|apply nth_error_None in Ea; lia].
  destruct (nth_error b i) as [y|] eqn:Eb; [|apply nth_error_None in Eb; lia].
  destruct (H i x y Hl Ea Eb) as (z & Hz & Hr). rewrite Hi in Hr. inversion Hr; subst. eapply Hf; eauto.
Qed.
Lemma elementwise1_words {A} (f : A -> res Z) a r : (forall x v, f x = Ok v -> word w v) ->
  length a = xN X -> elementwise1 (xN X) f a (Ok r) -> words w r.
Proof.
  intros Hf La [L H]. apply Forall_forall. intros v Hv. apply In_nth_error in Hv. destruct Hv as [i Hi].
  assert (Hl : i < xN X) by (rewrite <- L; apply nth_error_Some; congruence).
  destruct (nth_error a i) as [x|] eqn:Ea; [|apply nth_error_None in Ea; lia].
  destruct (H i x Hl Ea) as (z & Hz & Hr). rewrite Hi in Hr. inversion Hr; subst. eapply Hf; eauto.
Qed.

(** [r] is the elementwise result: well formed and elementwise when defined, undefined only when [f] is at some element *)
Definition ew1 (f : Z -> res Z) (a : list vec) (r : res (list vec)) : Prop :=
  (forall v, r = Ok v -> shaped X v) /\ elementwise1 (xN X) f (elems X a) (rmap (elems X) r).
Definition ew2 (f : Z -> Z -> res Z) (a b : list vec) (r : res (list vec)) : Prop :=
  (forall v, r = Ok v -> shaped X v) /\ elementwise2 (xN X) f (elems X a) (elems X b) (rmap (elems X) r).

Lemma packed2_ok (f : Z -> Z -> res Z) (op : list Z -> list Z -> res (list Z)) d a b :
  full -> shaped X d -> shaped X a -> shaped X b -> (forall x y v, f x y = Ok v -> word w v) ->
  (forall p q, length p = xN X -> length q = xN X -> elementwise2 (xN X) f p q (op p q)) ->
  ew2 f a b (pa <- to_packed X a;; pb <- to_packed X b;; r <- op pa pb;; of_packed X d r).
Proof.
  intros HF Hd Ha Hb Hw Hop. rewrite !to_packed_full by auto. cbn [bind].
  pose proof (elems_length HX Ha) as La. pose proof (elems_length HX Hb) as Lb.
  specialize (Hop _ _ La Lb). destruct (op (elems X a) (elems X b)) as [r|]; cbn [bind].
  - pose proof (elementwise2_words Hw La Lb Hop) as Wr.
    destruct (@of_packed_ok d r Hd Wr) as (d' & E & Sh & Ed); [apply Hop|]. rewrite E.
    split; [intros v Hv; inversion Hv; subst; auto|]. unfold rmap. cbn [bind]. rewrite Ed. auto.
  - split; [discriminate|]. exact Hop.
Qed.
Lemma packed1_ok (f : Z -> res Z) (op : list Z -> res (list Z)) d a :
  full -> shaped X d -> shaped X a -> (forall x v, f x = Ok v -> word w v) ->
  (forall p, length p = xN X -> elementwise1 (xN X) f p (op p)) ->
  ew1 f a (pa <- to_packed X a;; r <- op pa;; of_packed X d r).
Proof.
  intros HF Hd Ha Hw Hop. rewrite !to_packed_full by auto. cbn [bind].
  pose proof (elems_length HX Ha) as La.
  specialize (Hop _ La). destruct (op (elems X a)) as [r|]; cbn [bind].
  - pose proof (elementwise1_words Hw La Hop) as Wr.
    destruct (@of_packed_ok d r Hd Wr) as (d' & E & Sh & Ed); [apply Hop|]. rewrite E.
    split; [intros v Hv; inversion Hv; subst; auto|]. unfold rmap. cbn [bind]. rewrite Ed. auto.
  - split; [discriminate|]. exact Hop.
Qed.

(** Inherited operators (result array + whole-register load) *)
Lemma fill_elementwise1 (f : Z -> res Z) a : shaped X a ->
  elementwise1 (xN X) f (elems X a) (fill (xN X) (fun i => x <- xget X a i;; f x) (repeat 0%Z (xN X))).
Proof.
  intros Ha. pose proof (elems_length HX Ha) as La.
  pose proof (from_result_elementwise1 0%Z (xN X) f (elems X a) La) as H.
  assert (E : from_result 0%Z (xN X) (fun i => x <- get (elems X a) i;; f x) = fill (xN X) (fun i => x <- xget X a i;; f x) (repeat 0%Z (xN X))).
  { apply res_ext. intros v. rewrite from_result_ok, fill_ok_iff by (rewrite repeat_length; lia). rewrite repeat_length. split.
    - intros [L G]. split; auto. split; [intros i Hi; rewrite xget_elems by auto; auto|].
      intros i Hi. rewrite !(proj2 (get_ub _ _)); rewrite ?repeat_length; auto; lia.
    - intros (L & G & _). split; auto. intros i Hi. rewrite <- G by auto. rewrite xget_elems by auto. auto. }
  rewrite <- E. exact H.
Qed.
Lemma fill_elementwise2 (f : Z -> Z -> res Z) a b : shaped X a -> shaped X b ->
  elementwise2 (xN X) f (elems X a) (elems X b) (fill (xN X) (fun i => x <- xget X a i;; y <- xget X b i;; f x y) (repeat 0%Z (xN X))).
Proof.
  intros Ha Hb. pose proof (elems_length HX Ha) as La. pose proof (elems_length HX Hb) as Lb.
  pose proof (from_result_elementwise2 0%Z (xN X) f (elems X a) (elems X b) La Lb) as H.
  assert (E : from_result 0%Z (xN X) (fun i => x <- get (elems X a) i;; y <- get (elems X b) i;; f x y) =
     fill (xN X) (fun i => x <- xget X a i;; y <- xget X b i;; f x y) (repeat 0%Z (xN X))).
  { apply res_ext. intros v. rewrite from_result_ok, fill_ok_iff by (rewrite repeat_length; lia). rewrite repeat_length. split.
    - intros [L G]. split; auto. split; [intros i Hi; rewrite !xget_elems by auto; auto|].
      intros i Hi. rewrite !(proj2 (get_ub _ _)); rewrite ?repeat_length; auto; lia.
    - intros (L & G & _). split; auto. intros i Hi. rewrite <- G by auto. rewrite !xget_elems by auto. auto. }
  rewrite <- E. exact H.
Qed.
Lemma load_array d r : full -> shaped X d -> words w r -> length r = xN X ->
  exists d', x_copy_from X Ok true r 0 d = Ok d' /\ shaped X d' /\ elems X d' = r.
Proof.
  intros HF Hd Wr L. pose proof (proj2 M_full HF) as HM. destruct (@copy_from_vec r 0 d Hd Wr) as (d' & E & Sh & C); [lia|].
  exists d'. split; auto. split; auto. rewrite elems_full, C by auto. cbn [skipn]. apply firstn_exact. lia.
Qed.
Lemma via_array1_ok f d a : full -> shaped X d -> shaped X a -> (forall x v, f x = Ok v -> word w v) -> ew1 f a (x_via_array1 X f d a).
Proof.
  intros HF Hd Ha Hw. unfold x_via_array1. pose proof (fill_elementwise1 f Ha) as HE. pose proof (elems_length HX Ha) as La.
  destruct (fill _ _ _) as [r|]; cbn [bind].
  - pose proof (elementwise1_words Hw La HE) as Wr. destruct (@load_array d r HF Hd Wr) as (d' & E & Sh & C); [apply HE|].
    rewrite E. split; [intros v Hv; inversion Hv; subst; auto|]. unfold rmap. cbn [bind]. rewrite C. auto.
  - split; [discriminate|exact HE].
Qed.
Lemma via_array2_ok f d a b : full -> shaped X d -> shaped X a -> shaped X b -> (forall x y v, f x y = Ok v -> word w v) -> ew2 f a b (x_via_array2 X f d a b).
Proof.
  intros HF Hd Ha Hb Hw. unfold x_via_array2. pose proof (fill_elementwise2 f Ha Hb) as HE.
  pose proof (elems_length HX Ha) as La. pose proof (elems_length HX Hb) as Lb.
  destruct (fill _ _ _) as [r|]; cbn [bind].
  - pose proof (elementwise2_words Hw La Lb HE) as Wr. destruct (@load_array d r HF Hd Wr) as (d' & E & Sh & C); [apply HE|].
    rewrite E. split; [intros v Hv; inversion Hv; subst; auto|]. unfold rmap. cbn [bind]. rewrite C. auto.
  - split; [discriminate|exact HE].
Qed.
Lemma fill_length {A} n (f : nat -> res A) r0 r : fill n f r0 = Ok r -> length r = length r0.
Proof.
  unfold fill. intros H. eapply (@for_up_ok_inv _ (fun t => length t = length r0)); [| |exact H]; auto.
  intros j t t' _ Ht Hb. apply bind_ok in Hb. destruct Hb as (l & _ & Hb). apply set_length in Hb. congruence.
Qed.
Lemma via_array_ub d r : ~ full -> length r = xN X -> x_copy_from X Ok true r 0 d = UB.
Proof.
  intros HF L. apply copy_from_vec_ub. pose proof N_le_M.
  assert (M <> xN X) by (intros H'; apply HF, M_full; auto). lia.
Qed.
Lemma via_array1_ub f d a : ~ full -> x_via_array1 X f d a = UB.
Proof.
  intros HF. unfold x_via_array1. destruct (fill _ _ _) eqn:E; auto. cbn [bind]. apply via_array_ub; auto.
  rewrite (@fill_length _ _ _ _ _ E), repeat_length. auto.
Qed.
Lemma via_array2_ub f d a b : ~ full -> x_via_array2 X f d a b = UB.
Proof.
  intros HF. unfold x_via_array2. destruct (fill _ _ _) eqn:E; auto. cbn [bind]. apply via_array_ub; auto.
  rewrite (@fill_length _ _ _ _ _ E), repeat_length. auto.
Qed.

Lemma cxx_bin_word t o x y v : ity_ok t -> cxx_bin t o x y = Ok v -> word (iw t) v.
Proof. intros Ht H. unfold cxx_bin in H. apply bind_ok in H. destruct H as (u & _ & H). inversion H; subst. apply of_val_word; auto. Qed.
Lemma T_ok : ity_ok (ity_of (xT X)).
Proof. apply ity_of_ok. apply HX. Qed.
Lemma cxx_T_word o x y v : cxx_bin (ity_of (xT X)) o x y = Ok v -> word w v.
Proof. intros H. apply cxx_bin_word in H; [exact H|apply T_ok]. Qed.

Lemma x_div_i_ok d a b : full -> shaped X d -> shaped X a -> shaped X b ->
  ew2 (cxx_bin (ity_of (xT X)) OpDiv) a b (x_div_i X d a b).
Proof. intros. apply via_array2_ok; auto. apply cxx_T_word. Qed.
Lemma x_mod_i_ok d a b : full -> shaped X d -> shaped X a -> shaped X b ->
  ew2 (cxx_bin (ity_of (xT X)) OpMod) a b (x_mod_i X d a b).
Proof. intros. apply via_array2_ok; auto. apply cxx_T_word. Qed.
Lemma x_not_ok d a : full -> shaped X d -> shaped X a -> ew1 (cxx_not (ity_of (xT X))) a (x_not X d a).
Proof.
  intros. apply via_array1_ok; auto. intros x v E. unfold cxx_not in E. inversion E; subst. apply of_val_word, T_ok.
Qed.
Lemma packed2_op_ok o d a b : full -> shaped X d -> shaped X a -> shaped X b ->
  ew2 (cxx_bin (ity_of (xT X)) o) a b
    (pa <- to_packed X a;; pb <- to_packed X b;; r <- simd_binary (int_scalar (ity_of (xT X))) o (xN X) pa pb;; of_packed X d r).
Proof.
  intros. apply packed2_ok; auto; [apply cxx_T_word|]. intros p q Hp Hq.
  exact (simd_binary_elementwise (int_scalar (ity_of (xT X))) o (xN X) p q Hp Hq).
Qed.
Lemma packed1_op_ok o d a b : full -> shaped X d -> shaped X a ->
  ew1 (fun x => cxx_bin (ity_of (xT X)) o x b) a
    (pa <- to_packed X a;; r <- simd_binary_s (int_scalar (ity_of (xT X))) o (xN X) pa b;; of_packed X d r).
Proof.
  intros. apply packed1_ok; auto; [intros x v; apply cxx_T_word|]. intros p Hp.
  exact (simd_binary_s_elementwise (int_scalar (ity_of (xT X))) o (xN X) p b Hp).
Qed.

(** *** Constructors *)
Lemma x_broadcast_ok v : word w v -> shaped X (x_broadcast X v) /\ elems X (x_broadcast X v) = repeat v (xN X).
Proof.
  intros Hv. split; [|apply elems_repeat; auto]. apply repeat_shaped. split; [apply repeat_length|apply words_repeat; auto].
Qed.
Lemma mask_broadcast_ok b : shaped X (mask_broadcast X b) /\ elems X (mask_broadcast X b) = repeat (mlane w b) (xN X).
Proof.
  apply x_broadcast_ok. apply word_mlane. pose proof (@xw_pos X ltac:(apply HX)). fold w in H. lia.
Qed.
End WF.
