(** C20: shuffles of the x86 backend. *)
From Coq Require Import ZifyBool ZifyNat.
From Verif Require Import Base Cxx Spec Generic GenericProofs X86Vec X86 X86Lemmas X86Reduce X86ReduceProofs X86Shuffle X86ShuffleProofs PropX86.
Set Implicit Arguments.
Lemma nth_error_firstn' {A} (l : list A) n i : nth_error (firstn n l) i = if i <? n then nth_error l i else None.
Proof.
  revert l i; induction n as [|n IH]; intros l i; [destruct i; auto|]. destruct l as [|a l]; [destruct i; simpl; auto; destruct (_ <? _); auto|].
  destruct i as [|i]; auto. simpl nth_error. rewrite IH. auto.
Qed.

(** shuffle<Is...>(x) for a source of type [X] with any index list below N and a result type [Y] of |Is| elements (the two
    types may use different register widths): no out-of-bounds access happens and result element j is source element Is[j],
    when the index list fills whole registers, or when the library's padding indices (the last index plus 1, plus 2, ...)
    still lie inside the storage of x. *)
Theorem C20_shuffle_partial X Y is x : xty_ok X -> xty_ok Y -> xT Y = xT X -> xc Y = xc X -> has_shuffle X = true ->
  xN Y = length is -> Forall (fun i => i < xN X) is -> shaped X x ->
  let e := Nat.min (xvs X) (xvs Y) / esz (xT X) in          (* elements per register *)
  length is mod e = 0 \/ last is 0 + (e - length is mod e) < dsz X * ext X ->
  exists r, x_shuffle X Y is x = Ok r /\ shaped Y r /\
    (forall j i, nth_error is j = Some i -> nth_error (elems Y r) j = nth_error (elems X x) i) /\
    (forall j i, nth_error is j = Some i -> nth_error (mask_elems Y r) j = nth_error (mask_elems X x) i).
Proof.
  intros HX HY HT _ _ HN Hi Hx e Hpad.
  pose proof (x_shuffle_main HX HY HT is Hx HN) as R. fold (shuf_e X Y) in e. fold e in R.
  destruct (concat_shaped Hx) as [Lc _]. pose proof (dsz_spec HX) as (_ & DX & _).
  assert (Hall : Forall (fun i => i < length (concat x)) (padded e is)).
  { unfold padded. destruct (Nat.eqb_spec (length is mod e) 0) as [E|E].
    - eapply Forall_impl; [|exact Hi]. simpl. intros; lia.
    - destruct Hpad as [?|Hpad]; [lia|]. apply Forall_app. split; [eapply Forall_impl; [|exact Hi]; simpl; intros; lia|].
      apply Forall_forall. intros k Hk. apply in_map_iff in Hk. destruct Hk as (q & <- & Hq). apply in_seq in Hq. lia. }
  assert (Hm : exists l, mapM (get (concat x)) (padded e is) = Ok l).
  { clear -Hall. induction Hall as [|i l Hi Hl [r IH]]; simpl; [eexists; eauto|]. destruct (@get_lt_ok _ (concat x) i Hi) as [v Ev]. rewrite Ev. simpl. rewrite IH. simpl. eexists; eauto. }
  destruct Hm as [l Hm]. rewrite Hm in R. destruct R as (r & Er & Sr & Cr). exists r. split; auto. split; auto.
  assert (Key : forall j i, nth_error is j = Some i -> nth_error (elems Y r) j = nth_error (elems X x) i).
  { intros j i Hj. assert (Hjl : j < length is) by (apply nth_error_Some; congruence).
    assert (Hix : i < xN X) by (eapply Forall_forall in Hi; [exact Hi|eapply nth_error_In; eauto]).
    apply mapM_ok_iff in Hm. destruct Hm as [Ll Hm].
    assert (Gp : get (padded e is) j = Ok i).
    { apply get_ok. unfold padded. destruct (_ =? 0); auto. rewrite nth_error_app1; auto. }
    pose proof (Hm _ _ Gp) as Hg. destruct (get_lt_ok (concat x) i) as [v Hv]; [lia|]. rewrite Hv in Hg. symmetry in Hg.
    apply get_ok in Hv, Hg. unfold elems. rewrite !nth_error_firstn'.
    replace (j <? xN Y) with true by lia. replace (i <? xN X) with true by lia. rewrite Cr, nth_error_app1 by (apply nth_error_Some; congruence). congruence. }
  split; auto. intros j i Hj. unfold mask_elems. rewrite !nth_error_map. rewrite (Key _ _ Hj). auto.
Qed.
Print Assumptions C20_shuffle_partial.

(** Otherwise the padding indices leave the storage of x: the call reads outside x. *)
Theorem C20_shuffle_padding_refuted X Y is x : xty_ok X -> xty_ok Y -> xT Y = xT X -> xc Y = xc X -> has_shuffle X = true ->
  xN Y = length is -> Forall (fun i => i < xN X) is -> shaped X x ->
  let e := Nat.min (xvs X) (xvs Y) / esz (xT X) in
  length is mod e <> 0 -> dsz X * ext X <= last is 0 + (e - length is mod e) ->
  x_shuffle X Y is x = UB.
Proof.
  intros HX HY HT _ _ HN Hi Hx e Hm0 Hpad.
  pose proof (x_shuffle_main HX HY HT is Hx HN) as R. fold (shuf_e X Y) in e. fold e in R.
  destruct (concat_shaped Hx) as [Lc _].
  destruct (mapM (get (concat x)) (padded e is)) as [l|] eqn:Hm; auto. exfalso.
  apply mapM_ok_iff in Hm. destruct Hm as [Ll Hm]. unfold padded in Hm, Ll. replace (length is mod e =? 0) with false in * by lia.
  assert (He : length is mod e < e).
  { apply Nat.mod_upper_bound. unfold e, shuf_e. pose proof (sz_cases HX) as S4. pose proof (proj2 (proj2 (vs_cases HX HY))) as V2.
    clear -S4 V2. destruct S4 as [-> | [-> | [-> | ->]]], V2 as [-> | ->]; discriminate. }
  set (k := e - length is mod e) in *.
  assert (G : get (is ++ map (fun q => last is 0 + 1 + q) (seq 0 k)) (length is + (k - 1)) = Ok (last is 0 + k)).
  { apply get_ok. rewrite nth_error_app2 by lia. replace (length is + (k - 1) - length is) with (k - 1) by lia.
    rewrite nth_error_map. rewrite (nth_error_nth' _ 0) by (rewrite seq_length; lia). rewrite seq_nth by lia. simpl. f_equal. lia. }
  pose proof (Hm _ _ G) as B. rewrite (proj2 (get_ub (concat x) (last is 0 + k))) in B by lia. symmetry in B.
  destruct (get_lt_ok l (length is + (k - 1))) as [v Hv]; [rewrite Ll, app_length, map_length, seq_length; lia|congruence].
Qed.
Print Assumptions C20_shuffle_padding_refuted.

(** Concrete cases. *)
Definition u8x20 : xty := {| xc := sse4; xT := {| esz := 1; ek := KInt false |}; xvs := 16; xN := 20 |}.
Definition f32x4 : xty := {| xc := sse2; xT := {| esz := 4; ek := KFloat |}; xvs := 16; xN := 4 |}.
Definition f32x3 : xty := {| xc := sse2; xT := {| esz := 4; ek := KFloat |}; xvs := 16; xN := 3 |}.
Definition i32x6y : xty := {| xc := sse2; xT := {| esz := 4; ek := KInt true |}; xvs := 16; xN := 5 |}.
Example C20_case : has_shuffle i32x6 = true /\ last [5; 5; 0; 3; 2] 0 + (4 - 5 mod 4) < dsz i32x6 * ext i32x6 /\
  exists r, x_shuffle i32x6 i32x6y [5; 5; 0; 3; 2] va = Ok r /\ elems i32x6y r = [6; 6; 1; 4; 3]%Z.
Proof. split; [reflexivity|]. split; [cbn; lia|]. eexists. split; reflexivity. Qed.
(** Narrow to wide registers (AVX: 4 floats in one 128-bit register shuffled to 8 floats in one 256-bit register). *)
Definition af32x4 : xty := {| xc := avx1; xT := {| esz := 4; ek := KFloat |}; xvs := 16; xN := 4 |}.
Definition af32x8 : xty := {| xc := avx1; xT := {| esz := 4; ek := KFloat |}; xvs := 32; xN := 8 |}.
Example C20_case_width : exists r, x_shuffle af32x4 af32x8 [3; 2; 1; 0; 0; 0; 3; 3] [[10; 20; 30; 40]]%Z = Ok r /\
  elems af32x8 r = [40; 30; 20; 10; 10; 10; 40; 40]%Z /\ xty_ok af32x4 /\ xty_ok af32x8.
Proof. eexists. split; [reflexivity|]. split; [reflexivity|]. split; xok. Qed.
(** shuffle<0, 1, 3> of a 4-element float vector reads past the end. *)
Theorem C20_shuffle_0_1_3_refuted : xty_ok f32x4 /\ xty_ok f32x3 /\ shaped f32x4 [[1; 2; 3; 4]]%Z /\ x_shuffle f32x4 f32x3 [0; 1; 3] [[1; 2; 3; 4]]%Z = UB.
Proof. split; [xok|]. split; [xok|]. split; [shp|reflexivity]. Qed.
Print Assumptions C20_shuffle_0_1_3_refuted.
