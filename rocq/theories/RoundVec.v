(** lrint: the loop that writes two registers per source register. *)
From Coq Require Import ZifyBool ZifyNat Reals Lra.
From Flocq Require Import Core IEEE754.BinarySingleNaN IEEE754.Binary.
From Verif Require Import Base Cxx Spec GenericProofs X86Vec X86 X86Lemmas X86Proofs X86Ops X86Shift Fp FpLemmas FpOps FMath FMathProofs FLane FManip FManipLanes FRoute FRouteProofs PropManip Cvt CvtProofs LogbProofs PropLogb Round.
Set Implicit Arguments.
Local Open Scope nat_scope.

Section Put2.
Context {A B : Type} (f g : A -> B).
Definition put2 (x : list A) (r : nat) (d : list B) : res (list B) := v <- get x r;; d <- set d (2 * r) (f v);; set d (2 * r + 1) (g v).
Lemma get_ext (a b : list B) : length a = length b -> (forall i, i < length a -> get a i = get b i) -> a = b.
Proof.
  revert b. induction a as [|u a IH]; intros [|v b] L H; cbn in L; try lia; auto.
  pose proof (H 0 ltac:(cbn; lia)) as H0. cbn in H0. injection H0 as ->. f_equal. apply IH; [lia|]. intros i Hi. apply (H (S i)). cbn. lia.
Qed.
Lemma flat_len (x : list A) : length (flat_map (fun v => [f v; g v]) x) = 2 * length x.
Proof. induction x; cbn; lia. Qed.
Lemma put2_ok x d : length d = 2 * length x -> for_up 0 (length x) (put2 x) d = Ok (flat_map (fun v => [f v; g v]) x).
Proof.
  intros Ld. set (r := flat_map _ x).
  destruct (for_up_inv (fun j t => length t = 2 * length x /\ forall i, i < 2 * j -> get t i = get r i) 0 (length x) (put2 x) d) as (s & E & L & G).
  - lia.
  - split; auto. intros i Hi. lia.
  - intros j t Hj (Lt & Gt). unfold put2. destruct (get_lt_ok x j) as [v Gv]; [lia|]. rewrite Gv. cbn [bind].
    destruct (@set_lt_ok _ t (2 * j) (f v)) as [t1 E1]; [lia|]. rewrite E1. cbn [bind]. apply set_ok_iff in E1. destruct E1 as (_ & L1 & H1 & K1).
    destruct (@set_lt_ok _ t1 (2 * j + 1) (g v)) as [t2 E2]; [lia|]. rewrite E2. exists t2. split; auto. apply set_ok_iff in E2. destruct E2 as (_ & L2 & H2 & K2).
    split; [lia|]. intros i Hi. unfold r. rewrite get_flat_pair. destruct (Nat.eq_dec i (2 * j + 1)) as [-> |N1].
    + rewrite H2. replace ((2 * j + 1) / 2) with j by (apply (Nat.div_unique _ _ _ 1); lia). rewrite Gv. cbn [bind]. replace (Nat.odd (2 * j + 1)) with true; auto.
      rewrite Nat.odd_add. replace (Nat.odd (2 * j)) with false; auto. symmetry. rewrite Nat.odd_mul. reflexivity.
    + rewrite K2 by auto. destruct (Nat.eq_dec i (2 * j)) as [-> |N2].
      * rewrite H1. replace (2 * j / 2) with j by (apply (Nat.div_unique _ _ _ 0); lia). rewrite Gv. cbn [bind]. replace (Nat.odd (2 * j)) with false; auto. symmetry. rewrite Nat.odd_mul. reflexivity.
      * rewrite K1 by auto. rewrite Gt by lia. unfold r. rewrite get_flat_pair. reflexivity.
  - rewrite E. f_equal. apply get_ext. { unfold r. rewrite flat_len. auto. } intros i Hi. apply G. lia.
Qed.
Lemma put2_len x r d d' : put2 x r d = Ok d' -> length d' = length d /\ 2 * r + 1 < length d.
Proof.
  unfold put2. destruct (get x r) as [v|]; [|discriminate]. cbn [bind]. destruct (set d (2 * r) (f v)) as [t|] eqn:E; [|discriminate]. cbn [bind]. intros E2.
  apply set_ok_iff in E. apply set_ok_iff in E2. lia.
Qed.
Lemma loop_len x n d d' : for_up 0 n (put2 x) d = Ok d' -> length d' = length d /\ 2 * n <= length d.
Proof.
  revert d'. induction n as [|n IH]; intros d' H. { cbv in H. injection H as <-. cbn. split; [auto|lia]. }
  rewrite <- Nat.add_1_r, for_up_snoc in H. destruct (for_up 0 n (put2 x) d) as [t|]; [|discriminate]. cbn [bind] in H. destruct (IH t eq_refl) as [L1 L2]. apply put2_len in H. lia.
Qed.
End Put2.

Section Lrint.
Context {X J : xty} (HX : xty_ok X) (HJ : xty_ok J) (HF : is_int (xT X) = false) (nn : nans).
(** lane of lrint: the value converted to int32 and sign-extended (float) or converted to int64 (double) *)
Definition lrint1 (x : Z) : Z := if esz (xT X) =? 4 then sext32 (fto_int nn F32 mode_NE 32 x) else f64_i64l nn x.

Definition flo (v : vec) : vec := let tmp := cvtps_epi32 nn v in let s := srai 32 31 tmp in
  if is256 X then join2 32 (lo_half (unpacklo_epi32 tmp s) ++ lo_half (unpackhi_epi32 tmp s)) else join2 32 (unpacklo_epi32 tmp s).
Definition fhi (v : vec) : vec := let tmp := cvtps_epi32 nn v in let s := srai 32 31 tmp in
  if is256 X then join2 32 (hi_half (unpacklo_epi32 tmp s) ++ hi_half (unpackhi_epi32 tmp s)) else join2 32 (unpackhi_epi32 tmp s).
Lemma sext_words v : Forall (word 32) (cvtps_epi32 nn v).
Proof. unfold cvtps_epi32, vmap. apply Forall_map, Forall_forall. intros y _. apply fto_int_word. lia. Qed.
Lemma sext_cat v : esz (xT X) = 4 -> wfv X v -> flo v ++ fhi v = map sext32 (cvtps_epi32 nn v) /\ length (flo v) = ext X / 2 /\ length (fhi v) = ext X / 2.
Proof.
  intros E [Lv _]. destruct HX as (_ & _ & _ & HV). unfold ext in *. rewrite E in *. unfold flo, fhi. cbv zeta. pose proof (sext_words v) as W. set (t := cvtps_epi32 nn v) in *.
  assert (Lt : length t = xvs X / 4) by (unfold t, cvtps_epi32, vmap; now rewrite map_length). clearbody t. clear Lv.
  destruct HV as [V | [V _]]; unfold is256; rewrite V in *; cbn [Nat.eqb].
  - change (16 / 4) with 4 in *. destruct t as [|a [|b [|c [|d [|]]]]]; try discriminate Lt. pose proof (sext_lanes HF W) as S1. cbv zeta in S1. rewrite S1. repeat split.
  - change (32 / 4) with 8 in *. destruct t as [|a0 [|a1 [|a2 [|a3 [|a4 [|a5 [|a6 [|a7 [|]]]]]]]]]; try discriminate Lt.
    change (Forall (word 32) ([a0; a1; a2; a3] ++ [a4; a5; a6; a7])) in W. apply Forall_app in W. destruct W as [W1 W2].
    pose proof (sext_lanes HF W1) as S1. pose proof (sext_lanes HF W2) as S2. cbv zeta in S1, S2. cbn in S1, S2. split; [|split; reflexivity].
    change (map sext32 [a0; a1; a2; a3; a4; a5; a6; a7]) with (map sext32 [a0; a1; a2; a3] ++ map sext32 [a4; a5; a6; a7]). cbn [map] in *. rewrite <- S1, <- S2. reflexivity.
Qed.
Lemma exts : esz (xT X) = 4 -> long_vec_of X J -> xvs J = xvs X -> ext X = 2 * ext J /\ ext J = ext X / 2.
Proof.
  intros E (_ & _ & E8 & _) EV. unfold ext. rewrite E, E8, EV. destruct HX as (_ & _ & _ & [V | [V _]]); rewrite V; split; reflexivity.
Qed.
Lemma lrint_float_loop x : esz (xT X) = 4 -> long_vec_of X J -> xvs J = xvs X -> shaped X x ->
  x_lrint X J nn x = for_up 0 (length x) (put2 flo fhi x) (repeat (zerov J) (dsz J)).
Proof.
  intros E HL EV Hx. destruct (exts E HL EV) as [E1 _]. pose proof (ext_pos HJ) as EP. unfold x_lrint. rewrite (proj1 Hx).
  assert (Q : forall r d, (v <- get x r;; lrint_put X J nn r v d) = put2 flo fhi x r d).
  { intros r d. unfold put2, lrint_put. destruct (get x r) as [v|]; auto. cbn [bind]. rewrite E. cbn [Nat.eqb].
    replace (r * ext X / ext J) with (2 * r). 2:{ rewrite E1. apply (Nat.div_unique _ _ _ 0); lia. } unfold flo, fhi. destruct (is256 X); reflexivity. }
  unfold for_up. generalize (repeat (zerov J) (dsz J)). generalize 0 at 2 4. generalize (dsz X - 0) as n. induction n as [|n IH]; intros i d; auto. cbn [for_n]. rewrite Q. destruct (put2 flo fhi x i d); cbn [bind]; auto.
Qed.
Lemma dszs : ext X = 2 * ext J -> xN J = xN X -> dsz J = 2 * dsz X \/ dsz J + 1 = 2 * dsz X.
Proof.
  intros E EN. pose proof (ext_pos HJ) as EP. pose proof (dsz_spec HX) as DX. pose proof (dsz_spec HJ) as DJ. rewrite E, EN in *. set (e := ext J) in *. nia.
Qed.
Lemma dszs_iff : ext X = 2 * ext J -> xN J = xN X -> (dsz J = 2 * dsz X <-> xN X mod ext X = 0 \/ ext J < xN X mod ext X).
Proof.
  intros E EN. pose proof (ext_pos HJ) as EP. unfold dsz. rewrite E, EN. set (e := ext J) in *.
  pose proof (Nat.div_mod (xN X) (2 * e) ltac:(lia)) as D. pose proof (Nat.mod_upper_bound (xN X) (2 * e) ltac:(lia)) as U.
  set (q := xN X / (2 * e)) in *. set (r := xN X mod (2 * e)) in *. clearbody q r.
  assert (Q : xN X / e = 2 * q + r / e). { rewrite D. replace (2 * e * q + r) with (r + 2 * q * e) by lia. rewrite Nat.div_add by lia. lia. }
  assert (R : xN X mod e = r mod e). { rewrite D. replace (2 * e * q + r) with (r + 2 * q * e) by lia. apply Nat.mod_add. lia. }
  rewrite Q, R. clear D Q R.
  destruct (Nat.lt_ge_cases r e) as [L|L].
  - rewrite Nat.div_small, Nat.mod_small by lia. destruct (r =? 0) eqn:R0; lia.
  - replace (r / e) with 1 by (apply (Nat.div_unique _ _ _ (r - e)); lia). replace (r mod e) with (r - e) by (apply (Nat.mod_unique _ _ 1); lia).
    destruct (r =? 0) eqn:R0; [lia|]. destruct (r - e =? 0) eqn:R1; lia.
Qed.
Theorem lrint_float x : esz (xT X) = 4 -> long_vec_of X J -> xvs J = xvs X -> shaped X x ->
  if dsz J =? 2 * dsz X then exists d, x_lrint X J nn x = Ok d /\ shaped J d /\ elems J d = map lrint1 (elems X x) else x_lrint X J nn x = UB.
Proof.
  intros E HL EV Hx. destruct (exts E HL EV) as [E1 E2]. rewrite (lrint_float_loop E HL EV Hx). pose proof HL as (_ & EN & E8 & _).
  destruct (Nat.eqb_spec (dsz J) (2 * dsz X)) as [D|D].
  - rewrite put2_ok by (rewrite repeat_length, (proj1 Hx); auto). eexists. split; [reflexivity|].
    assert (C : concat (flat_map (fun v => [flo v; fhi v]) x) = map lrint1 (concat x) /\ Forall (fun v => length v = ext J) (flat_map (fun v => [flo v; fhi v]) x)).
    { destruct Hx as [_ Wx]. clear D. induction Wx as [|v x Wv Wx IH]; [split; constructor|]. destruct IH as [IC IL]. destruct (sext_cat E Wv) as (S1 & S2 & S3).
      cbn [flat_map app concat]. rewrite IC, map_app. split.
      - rewrite app_assoc, S1. f_equal. unfold cvtps_epi32, vmap. rewrite map_map. apply map_ext. intros a. unfold lrint1. rewrite E. reflexivity.
      - constructor; [|constructor]; auto; congruence. }
    destruct C as [CC CL]. split.
    + split. { rewrite flat_len, (proj1 Hx). lia. } apply Forall_forall. intros v Hv. split. { exact (proj1 (Forall_forall _ _) CL v Hv). }
      apply Forall_forall. intros y Hy. assert (Iy : In y (concat (flat_map (fun v => [flo v; fhi v]) x))) by (apply in_concat; eauto). rewrite CC in Iy. apply in_map_iff in Iy. destruct Iy as (z & <- & _).
      unfold lrint1. rewrite E. cbn [Nat.eqb]. unfold xw, ew. rewrite E8. apply wrap_word. lia.
    + unfold elems. rewrite CC, EN, firstn_map. reflexivity.
  - destruct (for_up _ _ _ _) as [d|] eqn:L; auto. exfalso. apply loop_len in L. rewrite repeat_length, (proj1 Hx) in L. destruct (dszs E1 EN); lia.
Qed.
Theorem lrint_double x : esz (xT X) = 8 -> long_vec_of X J -> shaped X x ->
  exists d, x_lrint X J nn x = Ok d /\ shaped J d /\ elems J d = map lrint1 (elems X x).
Proof.
  intros E (_ & EN & E8 & _ & EV) Hx. assert (EV' : xvs J = xvs X) by (destruct EV as [V|(V & _)]; [auto|congruence]).
  assert (EE : ext J = ext X) by (unfold ext; now rewrite EV', E, E8). assert (ED : dsz J = dsz X) by (unfold dsz; now rewrite EE, EN). pose proof (ext_pos HX) as EP.
  assert (K : forall v, wfv X v -> cvt_of_f X true nn v = map lrint1 v) by (intros v Wv; rewrite (@k_f64_i64 X nn v E); apply map_ext; intros; unfold lrint1; rewrite E; reflexivity).
  assert (Wl : forall y, word 64 (lrint1 y)) by (intros y; unfold lrint1; rewrite E; unfold f64_i64l; apply wrap_word; lia).
  exists (map (map lrint1) x). split; [|split].
  - unfold x_lrint.
    destruct (for_up_inv (fun j t => length t = dsz X /\ forall i, i < j -> get t i = get (map (map lrint1) x) i) 0 (dsz X) (fun r d => v <- get x r;; lrint_put X J nn r v d) (repeat (zerov J) (dsz J))) as (s & ES & L & G).
    + lia.
    + split; [rewrite repeat_length; auto|]. intros i Hi. lia.
    + intros j t Hj (Lt & Gt). destruct (get_shaped Hx (proj2 Hj)) as (v & Gv & Wv). rewrite Gv. cbn [bind]. unfold lrint_put. rewrite E. cbn [Nat.eqb]. rewrite EE, Nat.div_mul by lia. rewrite (K v Wv).
      destruct (@set_lt_ok _ t j (map lrint1 v)) as [t1 E1]; [lia|]. rewrite E1. exists t1. split; auto. apply set_ok_iff in E1. destruct E1 as (_ & L1 & H1 & K1). split; [lia|].
      intros i Hi. destruct (Nat.eq_dec i j) as [-> |N]. { rewrite H1. symmetry. apply get_ok. apply get_ok in Gv. now apply map_nth_error. } rewrite K1 by auto. apply Gt. lia.
    + rewrite ES. f_equal. apply get_ext. { rewrite map_length, (proj1 Hx). auto. } intros i Hi. apply G. lia.
  - destruct Hx as [Lx Wx]. split. { rewrite map_length. lia. } apply Forall_map. eapply Forall_impl; [|exact Wx]. intros v [Lv _]. split. { rewrite map_length. lia. }
    apply Forall_map, Forall_forall. intros y _. unfold xw, ew. rewrite E8. apply Wl.
  - unfold elems. rewrite EN, <- concat_map, firstn_map. reflexivity.
Qed.
End Lrint.
