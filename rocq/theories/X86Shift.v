(** Proofs about the x86 backend, part 5: generator constructors, shifts, min/max. *)
From Coq Require Import ZifyBool ZifyNat.
From Verif Require Import Base Cxx Spec Generic GenericProofs X86Vec X86 X86Lemmas X86Proofs X86Ops X86Mem.
Set Implicit Arguments.

(** *** Generators *)
Lemma gen_lanes_call {S} n (gen : nat -> S -> res (Z * S)) : forall I s, gen_lanes n I gen s = call_gen n I gen s.
Proof.
  induction n as [|n IH]; intros I s; simpl; auto. destruct (gen I s) as [[v s1]|]; simpl; auto. rewrite IH. auto.
Qed.
Lemma call_gen_app {A S} n m (gen : nat -> S -> res (A * S)) : forall I s,
  call_gen (n + m) I gen s = (' (vs, s1) <- call_gen n I gen s;; ' (ws, s2) <- call_gen m (I + n) gen s1;; Ok (vs ++ ws, s2)).
Proof.
  induction n as [|n IH]; intros I s.
  - simpl. rewrite Nat.add_0_r. destruct (call_gen m I gen s) as [[ws s2]|]; auto.
  - simpl. destruct (gen I s) as [[v s1]|]; simpl; auto. rewrite IH. replace (Datatypes.S I + n) with (I + Datatypes.S n) by lia.
    destruct (call_gen n (Datatypes.S I) gen s1) as [[vs s2]|]; simpl; auto.
    destruct (call_gen m (I + Datatypes.S n) gen s2) as [[ws s3]|]; simpl; auto.
Qed.
Lemma call_gen_length {A S} n (gen : nat -> S -> res (A * S)) : forall I s vs s',
  call_gen n I gen s = Ok (vs, s') -> length vs = n.
Proof.
  induction n as [|n IH]; intros I s vs s' H; simpl in H.
  - inversion H; auto.
  - destruct (gen I s) as [[v s1]|]; simpl in H; [|discriminate].
    destruct (call_gen n (Datatypes.S I) gen s1) as [[ws s2]|] eqn:E; simpl in H; [|discriminate].
    inversion H; subst. simpl. f_equal. eapply IH; eauto.
Qed.
Lemma call_gen_Forall {A S} (P : A -> Prop) n (gen : nat -> S -> res (A * S)) :
  (forall i s v s', gen i s = Ok (v, s') -> P v) -> forall I s vs s', call_gen n I gen s = Ok (vs, s') -> Forall P vs.
Proof.
  intros HP. induction n as [|n IH]; intros I s vs s' H; simpl in H.
  - inversion H; auto.
  - destruct (gen I s) as [[v s1]|] eqn:Eg; simpl in H; [|discriminate].
    destruct (call_gen n (Datatypes.S I) gen s1) as [[ws s2]|] eqn:E; simpl in H; [|discriminate].
    inversion H; subst. constructor; [eapply HP; eauto|eapply IH; eauto].
Qed.

Section WF.
Context (X : xty) (HX : xty_ok X).
Let w := xw X.
Let e := ext X.

Lemma firstn_succ_set {A} (d d' : list A) j v : set d j v = Ok d' -> firstn (j + 1) d' = firstn j d ++ [v].
Proof.
  intros H. apply set_ok_iff in H. destruct H as (H1 & H2 & H3 & H4).
  rewrite (firstn_snoc d' j v H3). f_equal. apply list_get_ext; [rewrite !firstn_length; lia|].
  intros i Hi. rewrite firstn_length in Hi. rewrite !get_firstn by lia. apply H4. lia.
Qed.
Lemma x_generate_ok {S} (gen : nat -> S -> res (Z * S)) d s :
  length d = dsz X -> (forall i s v s', gen i s = Ok (v, s') -> word w v) ->
  match call_gen (xN X) 0 gen s with
  | Ok (vs, s') => exists d', x_generate X gen d s = Ok (d', s') /\ shaped X d' /\ elems X d' = vs
  | UB => x_generate X gen d s = UB
  end.
Proof.
  intros Hd Hw. pose proof (e_pos HX) as He. pose proof (N_le_M HX) as HM. pose proof (dsz_spec HX) as HD.
  unfold x_generate. fold e in HD, HM |- *.
  set (body := fun j (st : list vec * S) => let k := Nat.min e (xN X - j * e) in
    ' (ls, s') <- gen_lanes k (j * e) gen (snd st);; d' <- set (fst st) j (ls ++ repeat 0%Z (e - k));; Ok (d', s')).
  assert (J : forall j, j <= dsz X ->
    match call_gen (Nat.min (j * e) (xN X)) 0 gen s with
    | Ok (vs, s') => exists d', for_up 0 j body (d, s) = Ok (d', s') /\ length d' = dsz X /\ Forall (wfv X) (firstn j d') /\
        concat (firstn j d') = vs ++ repeat 0%Z (j * e - xN X)
    | UB => for_up 0 j body (d, s) = UB
    end).
  { induction j as [|j IH]; intros Hj.
    - simpl. exists d. rewrite for_up_empty by lia. auto.
    - specialize (IH ltac:(lia)).
      assert (Hjl : j * e < xN X).
      { assert (j * e <= (dsz X - 1) * e) by (apply Nat.mul_le_mono_r; lia). lia. }
      rewrite Nat.min_l in IH by lia.
      replace (Nat.min (Datatypes.S j * e) (xN X)) with (j * e + Nat.min e (xN X - j * e)) by lia.
      rewrite call_gen_app. replace (Datatypes.S j) with (j + 1) by lia. rewrite for_up_snoc.
      destruct (call_gen (j * e) 0 gen s) as [[vs s1]|] eqn:C1; [|rewrite IH; reflexivity].
      destruct IH as (d1 & E1 & L1 & W1 & C). rewrite E1. cbn [bind]. set (k := Nat.min e (xN X - j * e)).
      assert (B : body j (d1, s1) = (' (ls, s') <- call_gen k (j * e) gen s1;; d' <- set d1 j (ls ++ repeat 0%Z (e - k));; Ok (d', s')))
        by (unfold body; cbv zeta; cbn [fst snd]; rewrite gen_lanes_call; reflexivity).
      rewrite B, Nat.add_0_l.
      destruct (call_gen k (j * e) gen s1) as [[ws s2]|] eqn:C2; [cbn [bind]|reflexivity].
      pose proof (call_gen_length _ _ _ _ C2) as Lw.
      destruct (set_lt_ok d1 j (ws ++ repeat 0%Z (e - k))) as [d2 S2]; [lia|]. rewrite S2. cbn [bind].
      exists d2. split; auto. split; [rewrite (set_length _ _ _ _ S2); auto|]. rewrite (@firstn_succ_set _ _ _ _ _ S2).
      replace (j * e - xN X) with 0 in C by lia. cbn [repeat] in C. rewrite app_nil_r in C. split.
      + apply Forall_app. split; auto. constructor; auto. split.
        * rewrite app_length, repeat_length. unfold k in *. fold e. lia.
        * apply words_app. split; [eapply (@call_gen_Forall _ _ (word w)); [exact Hw|exact C2]|].
          apply words_repeat. apply word_0. pose proof (@xw_pos X ltac:(apply HX)). lia.
      + rewrite concat_app. cbn [concat]. rewrite app_nil_r, C. replace ((j + 1) * e - xN X) with (e - k) by (unfold k; lia). rewrite app_assoc. reflexivity. }
  specialize (J (dsz X) (le_n _)). rewrite Nat.min_r in J by lia.
  destruct (call_gen (xN X) 0 gen s) as [[vs s']|] eqn:C; auto.
  destruct J as (d' & E & L & W & CC). exists d'. split; auto. rewrite firstn_all2 in W, CC by lia.
  split; [split; auto|]. unfold elems. rewrite CC. pose proof (call_gen_length _ _ _ _ C) as LV.
  rewrite firstn_app, LV, Nat.sub_diag. cbn [firstn]. rewrite app_nil_r. apply firstn_exact. auto.
Qed.

(** *** Per-lane shift counts (native path, 8-byte elements) *)
Definition lane_shl (x n : Z) : Z := if (n <? w)%Z then shl_bits w n x else 0%Z.
Definition lane_shr (x n : Z) : Z := if (n <? w)%Z then lshr_bits n x else 0%Z.
Lemma w8 : esz (xT X) = 8 -> w = 64%Z /\ e = (if is256 X then 4 else 2).
Proof.
  intros H. split; [unfold w, xw, ew; rewrite H; reflexivity|]. unfold e. rewrite (proj1 (ext_cases HX)), H.
  destruct (is256 X); reflexivity.
Qed.
Lemma v_shift_lanes a b : shift_native X = true -> wfv X a -> wfv X b ->
  v_shiftl X a b = vmap2 lane_shl a b /\ v_shiftr X a b = vmap2 lane_shr a b.
Proof.
  intros Hs [La Wa] [Lb Wb]. unfold shift_native in Hs. apply andb_prop in Hs. destruct Hs as [_ Hs]. apply Nat.eqb_eq in Hs.
  destruct (w8 Hs) as [Hw He]. fold e in La, Lb. unfold v_shiftl, v_shiftr. destruct (avx2 (xc X)); [split; reflexivity|].
  unfold lane_shl, lane_shr. rewrite Hw. destruct (is256 X).
  - destruct a as [|a0 [|a1 [|a2 [|a3 [|? ?]]]]]; simpl in La; try lia.
    destruct b as [|b0 [|b1 [|b2 [|b3 [|? ?]]]]]; simpl in Lb; try lia. split; reflexivity.
  - destruct a as [|a0 [|a1 [|? ?]]]; simpl in La; try lia.
    destruct b as [|b0 [|b1 [|? ?]]]; simpl in Lb; try lia. split; reflexivity.
Qed.
Lemma shl_word n x : word w (shl_bits w n x).
Proof. pose proof (w_pos HX). apply wrap_word. unfold w. lia. Qed.
Lemma lshr_word n x : (0 <= n)%Z -> word w x -> word w (lshr_bits n x).
Proof.
  unfold lshr_bits, word. intros Hn Hx. pose proof (pow2_pos n Hn). split; [apply Z.div_pos; lia|].
  apply Z.le_lt_trans with x; [|lia]. apply Z.div_le_upper_bound; nia.
Qed.
Lemma ashr_word n x : word w (ashr_bits w n x).
Proof. pose proof (w_pos HX). apply wrap_word. unfold w. lia. Qed.
Lemma word0 : word w 0. Proof. apply word_0. pose proof (w_pos HX). unfold w. lia. Qed.
Lemma lane_shl_word x n : word w (lane_shl x n).
Proof. unfold lane_shl. destruct (n <? w)%Z; [apply shl_word|apply word0]. Qed.
Lemma lane_shr_word x n : word w x -> word w n -> word w (lane_shr x n).
Proof. intros Hx Hn. unfold lane_shr. destruct (n <? w)%Z; [apply lshr_word; auto; apply Hn|apply word0]. Qed.

Lemma x_shl_native d a b : shift_native X = true -> shaped X a -> shaped X b -> is_map2 X lane_shl a b (x_shl X d a b).
Proof.
  intros Hs Ha Hb. unfold x_shl. rewrite Hs. apply vz2_map; auto.
  - intros u v Hu Hv. rewrite (proj1 (v_shift_lanes Hs Hu Hv)). auto.
  - intros; apply lane_shl_word.
Qed.
Lemma x_shr_native d a b : shift_native X = true -> shaped X a -> shaped X b -> is_map2 X lane_shr a b (x_shr X d a b).
Proof.
  intros Hs Ha Hb. unfold x_shr. rewrite Hs. apply vz2_map; auto.
  - intros u v Hu Hv. rewrite (proj2 (v_shift_lanes Hs Hu Hv)). auto.
  - intros; apply lane_shr_word; auto.
Qed.
Lemma x_shl_s_native d a n : shift_native X = true -> shaped X a -> word w n -> is_map1 X (fun x => lane_shl x n) a (x_shl_s X d a n).
Proof.
  intros Hs Ha Hn. unfold x_shl_s. rewrite Hs. apply vz1_map; auto.
  - intros u Hu. rewrite (proj1 (v_shift_lanes Hs Hu (@v_fill_wf X n Hn))). unfold v_fill. rewrite vmap2_repeat_r by apply Hu. auto.
  - intros; apply lane_shl_word.
Qed.
Lemma x_shr_s_native d a n : shift_native X = true -> shaped X a -> word w n -> is_map1 X (fun x => lane_shr x n) a (x_shr_s X d a n).
Proof.
  intros Hs Ha Hn. unfold x_shr_s. rewrite Hs. apply vz1_map; auto.
  - intros u Hu. rewrite (proj2 (v_shift_lanes Hs Hu (@v_fill_wf X n Hn))). unfold v_fill. rewrite vmap2_repeat_r by apply Hu. auto.
  - intros; apply lane_shr_word; auto.
Qed.

(** *** lsl / lsr / asl / asr *)
Lemma c_shiftl_lanes n a : c_shiftl X n a = map (shl_bits w n) a.
Proof. unfold c_shiftl, slli, vmap. destruct (muxed X); [rewrite mux1_map|]; reflexivity. Qed.
Lemma c_shiftr_lanes n a : c_shiftr X n a = map (lshr_bits n) a.
Proof. unfold c_shiftr, srli, vmap. destruct (muxed X); [rewrite mux1_map|]; reflexivity. Qed.
Lemma x_lsl_ok n a : shaped X a -> is_map1 X (shl_bits w n) a (x_lsl X n a).
Proof. intros. apply vz1_map; auto; [intros; rewrite c_shiftl_lanes; auto|]. intros; apply shl_word. Qed.
Lemma x_asl_ok n a : shaped X a -> is_map1 X (shl_bits w n) a (x_asl X n a).
Proof. intros. apply vz1_map; auto; [intros; rewrite c_shiftl_lanes; auto|]. intros; apply shl_word. Qed.
Lemma x_lsr_ok n a : (0 <= n)%Z -> shaped X a -> is_map1 X (lshr_bits n) a (x_lsr X n a).
Proof. intros. apply vz1_map; auto; [intros; rewrite c_shiftr_lanes; auto|]. intros; apply lshr_word; auto. Qed.
End WF.

(** emulated 64-bit arithmetic shift, one lane *)
Section Asr.
Local Open Scope Z_scope.
Definition asr_lane (n x : Z) : Z :=
  let h := x / 2 ^ 32 in let l := x mod 2 ^ 32 in
  if 32 <=? n then
    (if 32 <? n then wrap 32 (sgn 32 h / 2 ^ (n - 32)) else h) + 2 ^ 32 * wrap 32 (sgn 32 h / 2 ^ 31)
  else l / 2 ^ n + 2 ^ 32 * wrap 32 (sgn 32 h / 2 ^ n).
Lemma ashiftr64_2 n a b : ashiftr64 n [a; b] = [asr_lane n a; asr_lane n b].
Proof. unfold ashiftr64, asr_lane. cbv zeta. destruct (32 <=? n); [destruct (32 <? n)|]; reflexivity. Qed.
Lemma ashiftr64_4 n a b c d : ashiftr64 n [a; b; c; d] = map (asr_lane n) [a; b; c; d].
Proof. unfold ashiftr64, asr_lane. cbv zeta. destruct (32 <=? n); [destruct (32 <? n)|]; reflexivity. Qed.
Lemma sgn_split x : word 64 x -> sgn 64 x = sgn 32 (x / 2 ^ 32) * 2 ^ 32 + x mod 2 ^ 32 /\ word 32 (x / 2 ^ 32).
Proof.
  intros Hx. unfold word in *. pose proof (Z.div_mod x (2 ^ 32) ltac:(lia)). pose proof (Z.mod_pos_bound x (2 ^ 32) ltac:(lia)).
  set (h := x / 2 ^ 32) in *. set (l := x mod 2 ^ 32) in *. clearbody h l. split; [|lia].
  unfold sgn. change (64 - 1) with 63. change (32 - 1) with 31.
  destruct (Z.ltb_spec x (2 ^ 63)), (Z.ltb_spec h (2 ^ 31)); lia.
Qed.
Lemma wrap64_split q : wrap 64 q = wrap 32 q + 2 ^ 32 * wrap 32 (q / 2 ^ 32).
Proof.
  unfold wrap. change (2 ^ 64) with (2 ^ 32 * 2 ^ 32). rewrite Z.rem_mul_r by lia. reflexivity.
Qed.
Lemma asr_lane_ok n x : 0 <= n < 64 -> (n = 0 \/ 32 <= n) -> word 64 x -> asr_lane n x = ashr_bits 64 n x.
Proof.
  intros Hn Hc Hx. destruct (sgn_split Hx) as [HS HH]. unfold asr_lane, ashr_bits. cbv zeta. fold (wrap 64 (sgn 64 x / 2 ^ n)).
  pose proof (sgn_range 32 (x / 2 ^ 32) ltac:(lia) HH) as HR. change (32 - 1) with 31 in HR.
  pose proof (Z.mod_pos_bound x (2 ^ 32) ltac:(lia)) as HL. pose proof (wrap_sgn 32 _ ltac:(lia) HH) as HW.
  pose proof (wrap_sgn 64 x ltac:(lia) Hx) as HW64. pose proof (Z.div_mod x (2 ^ 32) ltac:(lia)) as HD.
  set (h := x / 2 ^ 32) in *. set (l := x mod 2 ^ 32) in *. set (s := sgn 32 h) in *.
  assert (D31 : s / 2 ^ 31 = if s <? 0 then -1 else 0).
  { destruct (Z.ltb_spec s 0).
    - symmetry. apply Z.div_unique with (s + 2 ^ 31); lia.
    - apply Z.div_small; lia. }
  destruct Hc as [->|Hc].
  - cbn [Z.leb Z.ltb Z.compare]. change (2 ^ 0) with 1. rewrite !Z.div_1_r, HW, HW64. lia.
  - replace (32 <=? n) with true by lia. rewrite HS, wrap64_split.
    assert (Q : (s * 2 ^ 32 + l) / 2 ^ n = s / 2 ^ (n - 32)).
    { replace n with (32 + (n - 32)) at 1 by lia. rewrite Z.pow_add_r, <- Z.div_div by (try apply pow2_pos; lia).
      rewrite Z.div_add_l, (Z.div_small l) by lia. f_equal. lia. }
    rewrite Q. set (q := s / 2 ^ (n - 32)) in *.
    assert (HQ : - 2 ^ 31 <= q < 2 ^ 31 /\ (q < 0 <-> s < 0)).
    { unfold q. pose proof (pow2_pos (n - 32) ltac:(lia)). repeat split.
      - apply Z.div_le_lower_bound; nia.
      - apply Z.div_lt_upper_bound; nia.
      - intros. destruct (Z.ltb_spec s 0); auto. pose proof (Z.div_pos s (2 ^ (n - 32)) ltac:(lia) ltac:(lia)). lia.
      - intros. apply Z.div_lt_upper_bound; lia. }
    assert (Q32 : q / 2 ^ 32 = if s <? 0 then -1 else 0).
    { destruct (Z.ltb_spec s 0).
      - symmetry. apply Z.div_unique with (q + 2 ^ 32); lia.
      - apply Z.div_small; lia. }
    rewrite D31, Q32. f_equal. destruct (Z.ltb_spec 32 n); auto.
    assert (Eq : q = s) by (unfold q; replace (n - 32) with 0 by lia; apply Z.div_1_r). rewrite Eq. auto.
Qed.
(** ... and between 1 and 31 the bits shifted out of the high half are lost *)
Lemma asr_lane_lost n : 0 < n < 32 -> asr_lane n (2 ^ 32) = 0 /\ ashr_bits 64 n (2 ^ 32) = 2 ^ (32 - n).
Proof.
  intros Hn. assert (E : 2 ^ 32 = 2 ^ (32 - n) * 2 ^ n) by (rewrite <- Z.pow_add_r by lia; f_equal; lia).
  pose proof (pow2_pos n ltac:(lia)). pose proof (pow2_pos (32 - n) ltac:(lia)). split.
  - unfold asr_lane. cbv zeta. replace (32 <=? n) with false by lia. rewrite Z.mod_same, Z.div_same by lia.
    change (sgn 32 1) with 1. rewrite (Z.div_small 1), Z.div_0_l; [reflexivity|lia|].
    pose proof (Z.pow_le_mono_r 2 1 n ltac:(lia) ltac:(lia)). lia.
  - unfold ashr_bits. change (sgn 64 (2 ^ 32)) with (2 ^ 32). rewrite E at 1. rewrite Z.div_mul by lia.
    apply Z.mod_small. split; [lia|]. apply Z.pow_lt_mono_r; lia.
Qed.
End Asr.

Section WF2.
Context (X : xty) (HX : xty_ok X).
Let w := xw X.
Definition lane_asr (n x : Z) : Z := if esz (xT X) =? 8 then asr_lane n x else ashr_bits w n x.
Lemma c_ashiftr_lanes n a : wfv X a -> c_ashiftr X n a = map (lane_asr n) a.
Proof.
  intros [La Wa]. unfold c_ashiftr, c_ashiftr128, lane_asr. destruct (Nat.eqb_spec (esz (xT X)) 8) as [E|E].
  - destruct (w8 HX E) as [_ He]. rewrite He in La. clear Wa He.
    assert (I2 : muxed X = true -> is256 X = true).
    { unfold muxed. intros H. apply andb_prop in H. destruct H as [H _]. apply andb_prop in H. tauto. }
    destruct (is256 X).
    + destruct a as [|a0 [|a1 [|a2 [|a3 [|? ?]]]]]; simpl in La; try lia.
      destruct (muxed X); [|apply ashiftr64_4].
      transitivity (ashiftr64 n [a0; a1] ++ ashiftr64 n [a2; a3]); [reflexivity|].
      rewrite !ashiftr64_2. reflexivity.
    + destruct (muxed X); [discriminate (I2 eq_refl)|].
      destruct a as [|a0 [|a1 [|? ?]]]; simpl in La; try lia. apply ashiftr64_2.
  - unfold srai, vmap. destruct (muxed X); [rewrite mux1_map|]; reflexivity.
Qed.
Lemma asr_lane_word n x : (0 <= n)%Z -> word 64 x -> word 64 (asr_lane n x).
Proof.
  intros Hn Hx. destruct (sgn_split Hx) as [_ HH]. unfold asr_lane. cbv zeta.
  assert (W : forall y, word 32 (wrap 32 y)) by (intros; apply wrap_word; lia).
  assert (C : forall u v, word 32 u -> word 32 v -> word 64 (u + 2 ^ 32 * v)).
  { unfold word. intros u v Hu Hv. change (2 ^ 64)%Z with (2 ^ 32 * 2 ^ 32)%Z. nia. }
  destruct (32 <=? n)%Z; apply C; auto.
  - destruct (32 <? n)%Z; auto.
  - unfold word. pose proof (Z.mod_pos_bound x (2 ^ 32) ltac:(lia)). pose proof (pow2_pos n Hn).
    split; [apply Z.div_pos; lia|]. apply Z.le_lt_trans with (x mod 2 ^ 32)%Z; [|lia]. apply Z.div_le_upper_bound; nia.
Qed.
Lemma lane_asr_word n x : (0 <= n)%Z -> word w x -> word w (lane_asr n x).
Proof.
  intros Hn Hx. unfold lane_asr. destruct (Nat.eqb_spec (esz (xT X)) 8) as [E|E]; [|apply ashr_word; auto].
  destruct (w8 HX E) as [Hw _]. unfold w in *. rewrite Hw in *. apply asr_lane_word; auto.
Qed.
Lemma x_asr_any n a : (0 <= n)%Z -> shaped X a -> is_map1 X (lane_asr n) a (x_asr X n a).
Proof.
  intros Hn Ha. apply vz1_map; auto.
  - intros v Hv. rewrite c_ashiftr_lanes; auto.
  - intros; apply lane_asr_word; auto.
Qed.
Lemma is_map1_ext f g a r : shaped X a -> (forall x, word w x -> f x = g x) -> is_map1 X f a r -> is_map1 X g a r.
Proof.
  intros Ha E (v & R & Sh & M). exists v. split; auto. split; auto. destruct M as [L M]. split; auto.
  intros i x Hi Hx. destruct (M i x Hi Hx) as (y & Hy & Hr). exists y. split; auto. rewrite <- E; auto.
  apply nth_error_In in Hx. eapply words_In; [apply elems_words; exact Ha|exact Hx].
Qed.
Lemma is_map2_ext f g a b r : shaped X a -> shaped X b -> (forall x y, word w x -> word w y -> f x y = g x y) -> is_map2 X f a b r -> is_map2 X g a b r.
Proof.
  intros Ha Hb E (v & R & Sh & M). exists v. split; auto. split; auto. destruct M as [L M]. split; auto.
  intros i x y Hi Hx Hy. destruct (M i x y Hi Hx Hy) as (z & Hz & Hr). exists z. split; auto. rewrite <- E; auto.
  - apply nth_error_In in Hx. eapply words_In; [apply elems_words; exact Ha|exact Hx].
  - apply nth_error_In in Hy. eapply words_In; [apply elems_words; exact Hb|exact Hy].
Qed.
Lemma x_asr_ok n a : (0 <= n < w)%Z -> (esz (xT X) <> 8 \/ (n = 0 \/ 32 <= n)%Z) -> shaped X a ->
  is_map1 X (ashr_bits w n) a (x_asr X n a).
Proof.
  intros Hn Hc Ha. eapply is_map1_ext; [exact Ha| |apply x_asr_any; [lia|exact Ha]].
  intros x Hx. unfold lane_asr. destruct (Nat.eqb_spec (esz (xT X)) 8) as [E|E]; auto.
  destruct (w8 HX E) as [Hw _]. unfold w in *. rewrite Hw in *. apply asr_lane_ok; auto; lia.
Qed.

(** *** min / max / clamp *)
Definition lane_min (x y : Z) : Z := if is_int (xT X) then i_min (xT X) x y else f_min w x y.
Definition lane_max (x y : Z) : Z := if is_int (xT X) then i_max (xT X) x y else f_max w x y.
Lemma v_min_lanes a b : v_min X a b = vmap2 lane_min a b.
Proof. unfold v_min, lane_min, is_int. destruct (ek (xT X)); reflexivity. Qed.
Lemma v_max_lanes a b : v_max X a b = vmap2 lane_max a b.
Proof. unfold v_max, lane_max, is_int. destruct (ek (xT X)); reflexivity. Qed.
Lemma lane_min_word x y : word w x -> word w y -> word w (lane_min x y).
Proof. intros. unfold lane_min, i_min, f_min. destruct (is_int _); [destruct (Z.ltb _ _)|destruct (flt _ _ _)]; auto. Qed.
Lemma lane_max_word x y : word w x -> word w y -> word w (lane_max x y).
Proof. intros. unfold lane_max, i_max, f_max. destruct (is_int _); [destruct (Z.ltb _ _)|destruct (flt _ _ _)]; auto. Qed.
Lemma x_min_ok a b : shaped X a -> shaped X b -> is_map2 X lane_min a b (x_min X a b).
Proof. intros. apply vz2_map; auto; [intros; rewrite v_min_lanes; auto|apply lane_min_word]. Qed.
Lemma x_max_ok a b : shaped X a -> shaped X b -> is_map2 X lane_max a b (x_max X a b).
Proof. intros. apply vz2_map; auto; [intros; rewrite v_max_lanes; auto|apply lane_max_word]. Qed.
Lemma vmap2_vmap2_l {A B C D E} (f : C -> D -> E) (g : A -> B -> C) a b c :
  vmap2 f (vmap2 g a b) c = vmap3 (fun x y z => f (g x y) z) a b c.
Proof. revert b c; induction a; intros [|y b] [|z c]; simpl; auto. f_equal; auto. Qed.
Lemma x_clamp_ok v lo hi : shaped X v -> shaped X lo -> shaped X hi ->
  is_map3 X (fun x l h => lane_min (lane_max x l) h) v lo hi (x_clamp X v lo hi).
Proof.
  intros. apply vz3_map; auto.
  - intros. rewrite v_min_lanes, v_max_lanes, vmap2_vmap2_l. auto.
  - intros. apply lane_min_word; auto. apply lane_max_word; auto.
Qed.
End WF2.
