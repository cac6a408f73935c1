(** Which exponent goes to which element. *)
From Coq Require Import ZifyBool ZifyNat.
From Verif Require Import Base Cxx Spec GenericProofs X86Vec X86 X86Lemmas X86Proofs X86Ops X86Shift Fp FpLemmas FpOps FKern FMath FMathProofs FLane FManip FManipLanes FRoute.
Set Implicit Arguments.

Definition lo32 (e : Z) : Z := (e mod 2 ^ 32)%Z.
Definition sext32 (e : Z) : Z := wrap 64 (sgn 32 e).

Lemma set_Forall {A} (P : A -> Prop) l i v r : set l i v = Ok r -> Forall P l -> P v -> Forall P r.
Proof.
  intros H Hl Hv. apply set_ok_iff in H. destruct H as (H1 & H2 & H3 & H4). apply Forall_forall. intros x Hx. apply In_nth_error in Hx. destruct Hx as [j Hj].
  apply get_ok in Hj. destruct (Nat.eq_dec j i) as [-> | N]. { congruence. } rewrite H4 in Hj by auto. apply get_ok, nth_error_In in Hj. exact (proj1 (Forall_forall _ _) Hl x Hj).
Qed.
Lemma split2_length k v : length (split2 k v) = 2 * length v. Proof. induction v; cbn in *; lia. Qed.

Section Put.
Context {X J : xty} (HX : xty_ok X) (HJ : xty_ok J) (HS : same_abi X J).
Local Notation eX := (ext X).
Local Notation eJ := (ext J).
Lemma e8 : esz (xT X) = 8 /\ eX = (if is256 X then 4 else 2).
Proof. destruct HS as (_ & _ & H & _). split; auto. apply (w8 HX H). Qed.
Lemma eJ_cases : (eJ = 2 * eX /\ is256 J = is256 X) \/ (eX = 4 /\ eJ = 4 /\ xN X <= 4 /\ is256 X = true /\ is256 J = false).
Proof.
  destruct HS as (_ & _ & H8 & H4 & _ & [V|(V1 & V2 & V3)]); unfold is256, ext; rewrite H8, H4.
  - left. rewrite V. split; auto. destruct HX as (_ & _ & _ & [-> | [-> _]]); reflexivity.
  - right. rewrite V1, V2. repeat split; auto. lia.
Qed.
Lemma xw_J : xw J = 32%Z. Proof. destruct HS as (_ & _ & _ & H4 & _). unfold xw, ew. rewrite H4. reflexivity. Qed.
Lemma xw_X : xw X = 64%Z. Proof. destruct HS as (_ & _ & H8 & _). unfold xw, ew. rewrite H8. reflexivity. Qed.

Lemma cvt1 e : length e = eX -> firstn eX (cvt_i64_i32 X e) = map lo32 e.
Proof.
  intros Le. unfold cvt_i64_i32. destruct e8 as [_ Ee]. rewrite Ee in *. destruct (is256 X).
  - destruct e as [|a [|b [|c [|d [|]]]]]; try discriminate. reflexivity.
  - destruct e as [|a [|b [|]]]; try discriminate. reflexivity.
Qed.
Lemma split_cons a b x : word 32 a -> word 32 b -> split2 32 ((a + 2 ^ 32 * b)%Z :: x) = a :: b :: split2 32 x.
Proof.
  unfold word. intros Ha Hb. cbn [split2]. f_equal; [|f_equal]; symmetry. { apply (Z.mod_unique _ _ b); lia. } apply (Z.div_unique _ _ _ a); lia.
Qed.
Lemma lo32_word e : word 32 (lo32 e). Proof. apply (wrap_word 32 e). lia. Qed.
Lemma cvt2 e0 e1 : length e0 = eX -> length e1 = eX -> cvt_i64x2_i32 X e0 e1 = map lo32 (e0 ++ e1).
Proof.
  intros L0 L1. unfold cvt_i64x2_i32. destruct e8 as [_ Ee]. rewrite Ee in *. destruct (is256 X).
  - destruct e0 as [|a [|b [|c [|d [|]]]]]; try discriminate. destruct e1 as [|a' [|b' [|c' [|d' [|]]]]]; try discriminate.
    assert (Q : forall x y z t, (if avx2 (xc X) then permute4x64 3 1 2 0 [x; y; z; t] else [nth 0 [x; y; z; t] 0%Z; nth 2 [x; y; z; t] 0%Z; nth 1 [x; y; z; t] 0%Z; nth 3 [x; y; z; t] 0%Z]) = [x; z; y; t]).
    { intros. destruct (avx2 (xc X)); reflexivity. }
    cbv zeta. cbn [split2 lo_half hi_half length Nat.div Nat.divmod fst firstn skipn shuffle_ps nth app join2]. rewrite Q.
    fold (lo32 a) (lo32 b) (lo32 c) (lo32 d) (lo32 a') (lo32 b') (lo32 c') (lo32 d').
    rewrite !split_cons by apply lo32_word. reflexivity.
  - destruct e0 as [|a [|b [|]]]; try discriminate. destruct e1 as [|a' [|b' [|]]]; try discriminate. reflexivity.
Qed.

(** The stored exponents are those of the elements, truncated to 32 bits. *)
Theorem put_exps_ok es d : length es = dsz X -> Forall (wfv X) es -> shaped J d ->
  exists d', put_exps X J es d = Ok d' /\ shaped J d' /\ elems J d' = map lo32 (elems X es).
Proof.
  intros Le We [Ld Wd]. assert (He := e8). destruct He as [H8 Ee]. unfold put_exps. rewrite H8. cbn [Nat.eqb].
  pose proof (dsz_spec HX) as DX. pose proof (dsz_spec HJ) as DJ. assert (NN : xN J = xN X) by apply HS.
  assert (Le' : Forall (fun v : vec => length v = eX) es) by (eapply Forall_impl; [|exact We]; intros v Hv; apply Hv).
  set (n := dsz X) in *. set (pairs := if dsz J <? n then n / 2 else 0).
  assert (Pb : 2 * pairs <= n). { unfold pairs. destruct (dsz J <? n); lia. }
  assert (eXp : 0 < eX) by (rewrite Ee; destruct (is256 X); lia).
  assert (Single : n <= 2 * pairs + 1 /\ pairs <= dsz J /\ (2 * pairs < n -> pairs < dsz J)).
  { unfold pairs. destruct eJ_cases as [[EJ _]|(E1 & E2 & N4 & _)].
    - destruct (Nat.ltb_spec (dsz J) n) as [Lt|Ge].
      + assert (n <= 2 * (n / 2) + 1) by lia. assert (2 * (n / 2) <= n) by lia. set (q := n / 2) in *. clearbody q.
        split; auto. clear - DX DJ NN EJ H H0 eXp. split; [|intros]; nia.
      + assert (n <= 1). { clear - Ge DX DJ NN EJ eXp. nia. } lia.
    - assert (n = 1) by nia. destruct (Nat.ltb_spec (dsz J) n); lia. }
  destruct Single as (Sn & Sp & Sq).
  set (P := fun (p : nat) (d : list vec) => length d = dsz J /\ Forall (wfv J) d /\ concat (firstn p d) = map lo32 (concat (firstn (2 * p) es))).
  assert (S0 : pairs <> 0 -> eJ = 2 * eX). { destruct eJ_cases as [[EJ _]|(E1 & E2 & N4 & _)]; auto. intros Hp. unfold n in *. nia. }
  destruct (@for_up_inv _ P 0 pairs (fun p d => e0 <- get es (2 * p);; e1 <- get es (2 * p + 1);; set d p (cvt_i64x2_i32 X e0 e1)) d) as (d1 & E1 & P1).
  { lia. } { split; auto. }
  { intros p t Hp (Lt & Wt & Ct). destruct (get_lt_ok es (2 * p)) as [e0 G0]; [lia|]. destruct (get_lt_ok es (2 * p + 1)) as [e1 G1]; [lia|].
    rewrite G0, G1. cbn [bind]. destruct (@set_lt_ok _ t p (cvt_i64x2_i32 X e0 e1)) as [t' St]; [lia|]. exists t'. split; auto.
    pose proof (proj1 (Forall_forall _ _) Le' e0 (nth_error_In _ _ (proj1 (get_ok _ _ _) G0))) as L0.
    pose proof (proj1 (Forall_forall _ _) Le' e1 (nth_error_In _ _ (proj1 (get_ok _ _ _) G1))) as L1. cbv beta in L0, L1.
    rewrite (cvt2 _ _ L0 L1) in St. split; [rewrite (set_length _ _ _ _ St); auto|]. split.
    - apply (set_Forall _ _ St); auto. split. rewrite map_length, app_length, L0, L1, S0; lia. rewrite xw_J. apply Forall_forall. intros y Hy.
      apply in_map_iff in Hy. destruct Hy as (z & <- & _). apply lo32_word.
    - rewrite (@firstn_succ_set X _ _ _ _ _ St). rewrite concat_app. cbn [concat]. rewrite app_nil_r, Ct.
      replace (2 * (p + 1)) with (2 * p + 1 + 1) by lia.
      assert (F : forall i v, get es i = Ok v -> firstn (i + 1) es = firstn i es ++ [v]). { intros. apply firstn_snoc; auto. }
      rewrite (F _ _ G1), (F _ _ G0). rewrite !concat_app. cbn [concat]. rewrite !app_nil_r, <- app_assoc, !map_app. reflexivity. }
  rewrite E1. cbn [bind]. destruct P1 as (Lt & Wt & Ct).
  assert (Fin : forall d', length d' = dsz J -> Forall (wfv J) d' -> (exists rest, concat d' = map lo32 (concat es) ++ rest) ->
    shaped J d' /\ elems J d' = map lo32 (elems X es)).
  { intros d' L' W' [rest C']. split; [split; auto|]. unfold elems. rewrite C', NN. rewrite firstn_app, map_length, (concat_length Le').
    replace (xN X - length es * eX) with 0 by (rewrite Le; lia). cbn [firstn]. rewrite app_nil_r. apply firstn_map. }
  destruct (Nat.eq_dec (2 * pairs) n) as [En|Nn].
  - rewrite En. replace (for_up n n (fun i d => e <- get es i;; put_part X J i e d) d1) with (Ok d1) by (unfold for_up; rewrite Nat.sub_diag; reflexivity). exists d1. split; auto. apply Fin; auto. exists (concat (skipn pairs d1)).
    rewrite <- (firstn_skipn pairs d1) at 1. rewrite concat_app, Ct, En. rewrite firstn_all2 by lia. reflexivity.
  - assert (Hn : n = 2 * pairs + 1) by lia. rewrite Hn. replace (for_up (2 * pairs) (2 * pairs + 1) (fun i d => e <- get es i;; put_part X J i e d) d1)
      with (e <- get es (2 * pairs);; put_part X J (2 * pairs) e d1).
    2:{ unfold for_up. replace (2 * pairs + 1 - 2 * pairs) with 1 by lia. cbn [for_n]. destruct (get es (2 * pairs)); cbn [bind]; auto. destruct (put_part _ _ _ _ _); auto. }
    destruct (get_lt_ok es (2 * pairs)) as [e G]; [lia|]. rewrite G. cbn [bind]. unfold put_part.
    pose proof (proj1 (Forall_forall _ _) Le' e (nth_error_In _ _ (proj1 (get_ok _ _ _) G))) as L0. cbv beta in L0.
    assert (Ep : 2 * pairs * eX / eJ = pairs /\ (2 * pairs * eX) mod eJ = 0 /\ eX <= eJ).
    { destruct eJ_cases as [[EJ _]|(Q1 & Q2 & N4 & _)].
      - rewrite EJ. replace (2 * pairs * eX) with (pairs * (2 * eX)) by lia. rewrite Nat.div_mul, Nat.mod_mul by lia. lia.
      - assert (pairs = 0) as -> by (unfold n in *; nia). rewrite Q1, Q2. cbn. lia. }
    destruct Ep as (-> & -> & Ex). destruct (get_lt_ok d1 pairs) as [v Gv]; [lia|]. rewrite Gv. cbn [bind firstn app Nat.add]. rewrite (cvt1 _ L0).
    destruct (@set_lt_ok _ d1 pairs (map lo32 e ++ skipn eX v)) as [d2 S2]; [lia|]. exists d2. split; auto.
    pose proof (proj1 (Forall_forall _ _) Wt v (nth_error_In _ _ (proj1 (get_ok _ _ _) Gv))) as [Lv Wv].
    apply Fin. { rewrite (set_length _ _ _ _ S2); auto. }
    { apply (set_Forall _ _ S2); auto. split. rewrite app_length, map_length, skipn_length, L0, Lv. lia.
      apply words_app. split; [|apply words_skipn; auto]. rewrite xw_J. apply Forall_forall. intros y Hy. apply in_map_iff in Hy. destruct Hy as (z & <- & _). apply lo32_word. }
    exists (skipn eX v ++ concat (skipn (pairs + 1) d2)).
    rewrite <- (firstn_skipn (pairs + 1) d2) at 1. rewrite concat_app, (@firstn_succ_set X _ _ _ _ _ S2), concat_app, Ct. cbn [concat].
    assert (Es : es = firstn (2 * pairs) es ++ [e]).
    { rewrite <- (firstn_snoc es (2 * pairs) e G). symmetry. apply firstn_all2. lia. }
    rewrite Es at 2. rewrite concat_app, map_app. cbn [concat]. rewrite !app_nil_r, <- !app_assoc. reflexivity.
Qed.
End Put.

Section Scal.
Context {X : xty} (HX : xty_ok X) (HF : is_int (xT X) = false) (nn : nans).
Local Notation w := (xw X).
Lemma scalbn1_word x n : word w x -> word w n -> word w (scalbn1 X nn x n).
Proof.
  intros Hx Hn. pose proof (ext_pos HX) as He.
  exact (L_word (k_scalbn_lane nn HX HF (@l_fill X 0 x He Hx) (@l_fill X 0 n He Hn))).
Qed.
Lemma k_scalbn_vec x n : wfv X x -> wfv X n -> k_scalbn X (ieee nn) x n = vmap2 (scalbn1 X nn) x n.
Proof. apply kernel2L; auto. intros k a b u v _ Ha Hb. now apply k_scalbn_lane. Qed.
Theorem x_scalbn_s_ok x n : shaped X x -> is_map1 X (fun x => scalbn1 X nn x (wrap w n)) x (x_scalbn_s X (ieee nn) x n).
Proof.
  intros Hx. pose proof (wrap_word w n (Z.lt_le_incl _ _ (Z.lt_le_trans 0 8 w ltac:(lia) (w_pos HX)))) as Wn.
  apply vz1_map; auto.
  - intros v Hv. f_equal. assert (Hf : wfv X (ifill (as_int X) n)).
    { unfold ifill. change (wfv (as_int X) (v_fill (as_int X) (wrap (xw (as_int X)) n))). apply v_fill_wf; exact Wn. }
    rewrite k_scalbn_vec by auto. unfold ifill, v_fill. apply vmap2_repeat_r. apply Hv.
  - intros y Hy. apply scalbn1_word; auto.
Qed.
(** if the exponents used for register i are register i of [es], whose elements are [en] of the given ones *)
Lemma scal_generic (B : vec -> nat -> res vec) x es : shaped X x -> shaped X es ->
  (forall i v, i < dsz X -> get x i = Ok v -> B v i = (e <- get es i;; Ok (k_scalbn X (ieee nn) v e))) ->
  is_map2 X (scalbn1 X nn) x es (fill (dsz X) (fun i => vx <- get x i;; B vx i) (zeros X)).
Proof.
  intros Hx He HB.
  assert (E : fill (dsz X) (fun i => vx <- get x i;; B vx i) (zeros X) = vz2 X (fun a b => Ok (k_scalbn X (ieee nn) a b)) x es).
  { unfold vz2. destruct (vz2_map (fun a b => Ok (k_scalbn X (ieee nn) a b)) (scalbn1 X nn) HX Hx He) as (v & Ev & _).
    { intros. now rewrite k_scalbn_vec. } { apply scalbn1_word. }
    unfold vz2 in Ev. rewrite Ev. apply fill_ok_iff in Ev; [|rewrite zeros_length; auto]. apply fill_ok_iff; [rewrite zeros_length; auto|].
    destruct Ev as (L & V & Z). split; auto. split; auto. intros i Hi. rewrite <- (V i Hi).
    destruct (get_shaped Hx Hi) as (u & G & _). rewrite G. cbn [bind]. apply HB; auto. }
  rewrite E. apply vz2_map; auto. { intros. now rewrite k_scalbn_vec. } apply scalbn1_word.
Qed.
End Scal.

Lemma get_flat_pair {A B} (f g : A -> B) l i : get (flat_map (fun v => [f v; g v]) l) i = (v <- get l (i / 2);; Ok (if Nat.odd i then g v else f v)).
Proof.
  revert i. induction l as [|v l IH]; intros i. { cbn [flat_map]. rewrite (proj2 (get_ub [] i)), (proj2 (get_ub [] (i / 2))); cbn; auto; lia. }
  cbn [flat_map app]. destruct i as [|[|i]]; try reflexivity. rewrite !get_cons_S, IH. replace (S (S i) / 2) with (S (i / 2)).
  - rewrite get_cons_S. reflexivity.
  - change (S (S i)) with (2 + i). replace (2 + i) with (i + 1 * 2) by lia. rewrite Nat.div_add; lia.
Qed.

(** ldexp(x, exp) with 128-bit registers (and for float with either width) *)
Section Ldexp.
Context {X J : xty} (HX : xty_ok X) (HJ : xty_ok J) (HF : is_int (xT X) = false) (nn : nans).
Theorem scalbn_v_f32 x n : esz (xT X) = 4 -> esz (xT J) = 4 -> xvs J = xvs X -> xN J = xN X -> shaped X x -> shaped J n ->
  is_map2 X (scalbn1 X nn) x n (x_scalbn_v X J (ieee nn) x n) /\ elems X n = elems J n.
Proof.
  intros EX EJ EV EN Hx Hn. assert (Hn' : shaped X n).
  { unfold shaped, wfv, dsz, ext, xw, ew in *. rewrite EX, EJ, EV, EN in *. exact Hn. }
  split; [|unfold elems; now rewrite EN]. unfold x_scalbn_v. apply scal_generic; auto. intros i v _ _. unfold scalbn32. rewrite EX. reflexivity.
Qed.
Lemma sext_lanes a b c d : Forall (word 32) [a; b; c; d] -> let e := [a; b; c; d] in let s := srai 32 31 e in
  join2 32 (unpacklo_epi32 e s) ++ join2 32 (unpackhi_epi32 e s) = map sext32 e.
Proof.
  intros H e s. subst e s. unfold srai, vmap. cbn [map unpacklo_epi32 unpackhi_epi32 join2 app].
  assert (Q : forall x, word 32 x -> (x + 2 ^ 32 * wrap 32 (sgn 32 x / 2 ^ 31))%Z = sext32 x).
  { intros x Hx. unfold sext32, sgn, wrap, word in *. destruct (x <? 2 ^ (32 - 1))%Z eqn:C.
    - rewrite (Z.div_small x) by lia. rewrite !Z.mod_small by lia. lia.
    - rewrite <- (Z.mod_unique (x - 2 ^ 32) (2 ^ 64) (-1) (x - 2 ^ 32 + 2 ^ 64)) by lia.
      rewrite <- (Z.div_unique (x - 2 ^ 32) (2 ^ 31) (-1) (x - 2 ^ 32 + 2 ^ 31)) by lia. change ((-1) mod 2 ^ 32)%Z with (2 ^ 32 - 1)%Z. lia. }
  inversion H as [|? ? Ha H1]; subst. inversion H1 as [|? ? Hb H2]; subst. inversion H2 as [|? ? Hc H3]; subst. inversion H3 as [|? ? Hd H4]; subst.
  rewrite !Q by auto. reflexivity.
Qed.
Definition exps64 (n : list vec) : list vec :=
  flat_map (fun e => [join2 32 (unpacklo_epi32 e (srai 32 31 e)); join2 32 (unpackhi_epi32 e (srai 32 31 e))]) n.
Lemma exps64_concat n : Forall (fun v => length v = 4 /\ words 32 v) n -> concat (exps64 n) = map sext32 (concat n) /\
  Forall (fun v => length v = 2) (exps64 n).
Proof.
  induction 1 as [|v n [Lv Wv] Hn IH]; cbn [exps64 flat_map app concat]; auto. destruct IH as [IC IL].
  destruct v as [|a [|b [|c [|d [|]]]]]; try discriminate. split; [|constructor; [|constructor]; auto].
  fold (exps64 n). rewrite IC, map_app, app_assoc, (sext_lanes Wv). reflexivity.
Qed.
Theorem scalbn_v_f64_128 x n : same_abi X J -> is256 X = false -> shaped X x -> shaped J n ->
  exists es, is_map2 X (scalbn1 X nn) x es (x_scalbn_v X J (ieee nn) x n) /\ shaped X es /\ elems X es = map sext32 (elems J n).
Proof.
  intros HS H2 Hx Hn. pose proof HS as HS'. destruct HS' as (_ & EN & E8 & E4 & _ & EV).
  assert (V16 : xvs X = 16). { destruct HX as (_ & _ & _ & [V|[V _]]); auto. unfold is256 in H2. rewrite V in H2. discriminate. }
  assert (VJ : xvs J = 16) by (destruct EV as [V|(V & _)]; congruence).
  assert (eX : ext X = 2) by (unfold ext; rewrite V16, E8; reflexivity). assert (eJ : ext J = 4) by (unfold ext; rewrite VJ, E4; reflexivity).
  pose proof (dsz_spec HX) as DX. pose proof (dsz_spec HJ) as DJ. rewrite eX, eJ, EN in *.
  assert (Hn4 : Forall (fun v => length v = 4 /\ words 32 v) n).
  { destruct Hn as [_ Wn]. eapply Forall_impl; [|exact Wn]. intros v [Lv Wv]. rewrite eJ in Lv. unfold xw, ew in Wv. rewrite E4 in Wv. auto. }
  destruct (exps64_concat Hn4) as [EC EL].
  assert (EN2 : length (exps64 n) = 2 * dsz J). { unfold exps64. rewrite <- (proj1 Hn). clear. induction n; cbn; lia. }
  set (es := firstn (dsz X) (exps64 n)). assert (Les : length es = dsz X). { unfold es. rewrite firstn_length. lia. }
  assert (Wes : Forall (wfv X) es).
  { apply Forall_forall. intros v Hv. assert (In v (exps64 n)) by (unfold es in Hv; rewrite <- (firstn_skipn (dsz X) (exps64 n)); apply in_or_app; auto).
    split. rewrite eX. exact (proj1 (Forall_forall _ _) EL v H). unfold xw, ew. rewrite E8. apply Forall_forall. intros y Hy.
    assert (Iy : In y (concat (exps64 n))) by (apply in_concat; eauto). rewrite EC in Iy. apply in_map_iff in Iy. destruct Iy as (z & <- & _). apply wrap_word. lia. }
  exists es. split; [|split; [split; auto|]].
  - unfold x_scalbn_v. apply scal_generic; auto. { split; auto. }
    intros i v Hi Gv. unfold scalbn32. rewrite E8, H2. cbn [Nat.eqb negb orb]. unfold es. rewrite get_firstn by auto. unfold exps64. rewrite get_flat_pair.
    destruct (get n (i / 2)) as [e|]; cbn [bind]; auto. destruct (Nat.odd i); reflexivity.
  - unfold elems. rewrite EN, <- firstn_map, <- EC.
    assert (EE : exps64 n = es ++ skipn (dsz X) (exps64 n)) by (unfold es; symmetry; apply firstn_skipn). rewrite EE. rewrite concat_app, firstn_app.
    assert (LC : length (concat es) = dsz X * 2). { rewrite (@concat_length _ es 2). lia. eapply Forall_impl; [|exact Wes]. intros v [Lv _]. congruence. }
    rewrite LC. replace (xN X - dsz X * 2) with 0 by lia. cbn [firstn]. rewrite app_nil_r. reflexivity.
Qed.
End Ldexp.

(** scalbln(x, exp): long exponents *)
Section Scalbln.
Context {X J : xty} (HX : xty_ok X) (HJ : xty_ok J) (HF : is_int (xT X) = false) (nn : nans).
Theorem scalbln_v_f64 x n : esz (xT X) = 8 -> esz (xT J) = 8 -> xvs J = xvs X -> xN J = xN X -> shaped X x -> shaped J n ->
  is_map2 X (scalbn1 X nn) x n (x_scalbln_v X J (ieee nn) x n) /\ elems X n = elems J n.
Proof.
  intros EX EJ EV EN Hx Hn. assert (Hn' : shaped X n).
  { unfold shaped, wfv, dsz, ext, xw, ew in *. rewrite EX, EJ, EV, EN in *. exact Hn. }
  split; [|unfold elems; now rewrite EN]. unfold x_scalbln_v. apply scal_generic; auto. intros i v _ _. unfold scalbn64. rewrite EX. reflexivity.
Qed.
(** float with 128-bit registers: registers 2i and 2i+1 of the exponents are used for register i *)
Fixpoint exps32 (n : list vec) : list vec :=
  match n with l :: h :: n' => shuffle_ps 2 0 2 0 (split2 32 l) (split2 32 h) :: exps32 n' | _ => [] end.
Lemma exps32_get n i : get (exps32 n) i = (h <- get n (i * 2 + 1);; l <- get n (i * 2);; Ok (shuffle_ps 2 0 2 0 (split2 32 l) (split2 32 h))).
Proof.
  revert n. induction i as [|i IH]; intros n.
  - destruct n as [|l [|h n]]; reflexivity.
  - destruct n as [|l [|h n]]; try reflexivity.
    cbn [exps32]. rewrite get_cons_S, IH. replace (S i * 2 + 1) with (S (S (i * 2 + 1))) by lia. replace (S i * 2) with (S (S (i * 2))) by lia. rewrite !get_cons_S. reflexivity.
Qed.
Lemma exps32_ok m n : length n = 2 * m -> Forall (fun v => length v = 2) n ->
  length (exps32 n) = m /\ Forall (fun v => length v = 4 /\ words 32 v) (exps32 n) /\ concat (exps32 n) = map lo32 (concat n).
Proof.
  revert n. induction m as [|m IH]; intros n Hl Hn.
  - destruct n; try discriminate. cbn. auto.
  - destruct n as [|l [|h n]]; cbn [length] in Hl; try lia. inversion Hn as [|? ? Ll Hn1]; subst. inversion Hn1 as [|? ? Lh Hn2]; subst.
    destruct (IH n ltac:(lia) Hn2) as (A & B & C). destruct l as [|a [|b [|]]]; try discriminate. destruct h as [|c [|d [|]]]; try discriminate.
    cbn [exps32]. split; [cbn [length]; lia|]. split; [constructor; auto|].
    + split; auto. cbn [split2 shuffle_ps nth]. fold (lo32 a) (lo32 b) (lo32 c) (lo32 d). repeat (constructor; [apply lo32_word|]). constructor.
    + cbn [concat]. rewrite C. reflexivity.
Qed.
Lemma scalbln_128 x n : same_abi J X -> is256 J = false -> shaped X x -> shaped J n ->
  (dsz J = 2 * dsz X -> exists es, is_map2 X (scalbn1 X nn) x es (x_scalbln_v X J (ieee nn) x n) /\ shaped X es /\ elems X es = map lo32 (elems J n)) /\
  (dsz J <> 2 * dsz X -> x_scalbln_v X J (ieee nn) x n = UB).
Proof.
  intros HS H2 Hx Hn. pose proof HS as HS'. destruct HS' as (_ & EN & E8 & E4 & _ & EV).
  assert (V16 : xvs J = 16). { destruct HJ as (_ & _ & _ & [V|[V _]]); auto. unfold is256 in H2. rewrite V in H2. discriminate. }
  assert (VX : xvs X = 16) by (destruct EV as [V|(V & _)]; congruence).
  assert (I2 : is256 X = false) by (unfold is256; rewrite VX; reflexivity).
  assert (eJ : ext J = 2) by (unfold ext; rewrite V16, E8; reflexivity). assert (eX : ext X = 4) by (unfold ext; rewrite VX, E4; reflexivity).
  pose proof (dsz_spec HX) as DX. pose proof (dsz_spec HJ) as DJ. rewrite eX, eJ, EN in *. split; intros DD.
  - assert (Ln : Forall (fun v : vec => length v = 2) n). { destruct Hn as [_ Wn]. eapply Forall_impl; [|exact Wn]. intros v [Lv _]. congruence. }
    destruct (@exps32_ok (dsz X) n) as (A & B & C); auto. { rewrite (proj1 Hn). exact DD. }
    exists (exps32 n). assert (Se : shaped X (exps32 n)).
    { split; auto. eapply Forall_impl; [|exact B]. intros v [Lv Wv]. split. now rewrite eX. unfold xw, ew. rewrite E4. exact Wv. }
    split; [|split; auto].
    + unfold x_scalbln_v. apply scal_generic; auto. intros i v Hi Gv. unfold scalbn64. rewrite E4, I2, H2. cbn [Nat.eqb].
      rewrite exps32_get. destruct (get n (i * 2 + 1)); cbn [bind]; auto. destruct (get n (i * 2)); reflexivity.
    + unfold elems. rewrite EN, C. apply firstn_map.
  - unfold x_scalbln_v. apply fill_ub_iff; [rewrite zeros_length; auto|]. exists (dsz X - 1). split; [lia|].
    destruct (@get_shaped X x (dsz X - 1) Hx ltac:(lia)) as (v & -> & _). cbn [bind]. unfold scalbn64. rewrite E4, I2, H2. cbn [Nat.eqb].
    rewrite (proj2 (get_ub n ((dsz X - 1) * 2 + 1))); auto. rewrite (proj1 Hn). lia.
Qed.
End Scalbln.
