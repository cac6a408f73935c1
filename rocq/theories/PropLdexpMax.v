(** C31: ldexp/scalbn with counts next to INT_MAX, decided. *)
From Coq Require Import ZifyBool ZifyNat Reals Lra.
From Flocq Require Import Core IEEE754.BinarySingleNaN IEEE754.Binary.
From Verif Require Import Base Cxx Spec X86Vec X86 X86Lemmas X86Proofs X86Masks X86Ops X86Shift Fp FpLemmas FpOps FKern FMath FMathProofs FNext PropX86 PropFloat
  FLane FManip FManipLanes FFields FScalbn FFrexp FModf FRoute FRouteProofs PropManip.
Set Implicit Arguments.
Local Open Scope Z_scope.
Local Notation bp := (bpow radix2).

Section M.
Context (X : xty) (nn : nans) (HX : xty_ok X) (HF : is_int (xT X) = false) (HB : cbound X = 2 ^ 31).
Local Notation f := (xf X).
Local Notation W := (fw f).
(** only 32 bits of the sum are compared *)
Lemma gtl_shift a t : gtl X (wrap W a) (wrap W t) = gtl X (wrap W a) (wrap W (t - 2 ^ 32)).
Proof.
  assert (T : wrap 32 t = wrap 32 (t - 2 ^ 32)). { unfold wrap. replace (t - 2 ^ 32) with (t + (-1) * 2 ^ 32) by lia. rewrite Z.mod_add by lia. reflexivity. }
  unfold gtl, cbound in *. destruct (l32 X) eqn:El.
  - assert (32 <= W) by (destruct f; cbn; lia).
    change (wrap W t mod 2 ^ 32) with (wrap 32 (wrap W t)). change (wrap W (t - 2 ^ 32) mod 2 ^ 32) with (wrap 32 (wrap W (t - 2 ^ 32))). rewrite !wrap_wrap_le by lia.
    rewrite T. reflexivity.
  - assert (E : W = 32). { rewrite (xw_fw HX HF) in HB. destruct f; [reflexivity|discriminate]. } rewrite E, T. reflexivity.
Qed.
Lemma scalbn_max x N : word W x -> isfin f x = true -> fmag W x <> 0 -> 2 ^ 31 - 2 ^ eb f <= N < 2 ^ 31 ->
  scalbnW nn (f := f) (gtl X) x (wrap W N) = (if Rlt_bool (Rabs (val f x)) (bp (2 ^ 31 - N - emax f + 1)) then infs f (fsign W x) else szero f (fsign W x)) /\
  (bp (emax f) <= Rabs (rnd f (val f x * bp N)))%R.
Proof.
  intros Hx Fx Nz HN. pose proof (@half_e f) as HE. pose proof (@mw_pos f) as HM. pose proof (@small_consts f) as SC.
  destruct (norm_form nn Hx Fx Nz) as (E0 & m' & Hm & HE0 & Vx & Cn & Cs). cbv zeta in Cn, Cs.
  rewrite (@scalbnW_eq nn f (gtl X) (cbound X) (@gtl_int X HX HF) x N E0 m' Hx Fx Nz Hm HE0 Cn Cs). cbv zeta. clear Cn Cs.
  pose proof (@emin_off f) as Eo. assert (Ex : emax f = 2 ^ (eb f - 1)) by reflexivity.
  assert (Vb : (bp (mw f + (E0 + emin f - 1)) <= Rabs (val f x) < bp (mw f + 1 + (E0 + emin f - 1)))%R).
  { rewrite Vx, sgnr_abs. apply sig_bounds; auto. apply Rmult_le_pos; [apply IZR_le; lia|apply bpow_ge_0]. }
  assert (G : forall a b, - 2 ^ 31 <= a < 2 ^ 31 -> - 2 ^ 31 <= b < 2 ^ 31 -> gtl X (wrap W a) (wrap W b) = (a >? b)) by (intros a b Ha Hb; apply (@gtl_int X HX HF); rewrite HB; auto).
  unfold max_scalbn. rewrite !(G (- (50000)) N), !(G N 50000) by (clear - HN SC; lia).
  replace (- (50000) >? N) with false by (clear - HN SC; lia). replace (N >? 50000) with true by (clear - HN SC; lia). cbn [orb].
  split.
  2: { apply (@rnd_ge_bpow f). { rewrite Eo, Ex. clear - HE HM. lia. } rewrite Rabs_mult, (Rabs_pos_eq (bp N)) by apply bpow_ge_0. apply Rle_trans with (bp (mw f + (E0 + emin f - 1)) * bp N)%R; [|apply Rmult_le_compat_r; [apply bpow_ge_0|apply Vb]]. rewrite <- bpow_plus. apply bpow_le. rewrite Eo, Ex. clear - HN HE0 HE SC. lia. }
  destruct (Z.lt_ge_cases (E0 + N) (2 ^ 31)) as [L|L].
  - rewrite (G (- mw f - 1) (E0 + N)) by (clear - L HE0 HN SC HM; lia). replace (- mw f - 1 >? E0 + N) with false by (clear - HE0 HN SC; lia).
    rewrite Rlt_bool_true; auto. apply Rlt_le_trans with (1 := proj2 Vb). apply bpow_le. rewrite Eo, Ex. clear - L HE. lia.
  - rewrite gtl_shift. rewrite (G (- mw f - 1) (E0 + N - 2 ^ 32)) by (clear - L HE0 HN SC HM; lia). replace (- mw f - 1 >? E0 + N - 2 ^ 32) with true by (clear - HE0 HN SC; lia).
    rewrite Rlt_bool_false; auto. apply Rle_trans with (2 := proj1 Vb). apply bpow_le. rewrite Eo, Ex. clear - L HE. lia.
Qed.
Lemma szero_infs s : szero f s <> infs f s.
Proof. destruct (@szero_fin f s) as (A & _). intros E. rewrite E in A. clear - A. destruct f, s; discriminate. Qed.
Lemma scalbn_max_elem x n : word (xw X) x -> 2 ^ 31 - 2 ^ eb f <= n < 2 ^ 31 ->
  let y := scalbn1 X nn x (wrap (xw X) n) in
  (ldexp_ok f x n y <-> (isfin f x = true -> (Rabs (val f x) < bp (2 ^ 31 - n - emax f + 1))%R)) /\
  (isfin f x = true -> (bp (2 ^ 31 - n - emax f + 1) <= Rabs (val f x))%R -> y = szero f (fsign W x)).
Proof.
  intros Hx Hn y. unfold y. clear y. rewrite (xw_fw HX HF) in *. rewrite (@scalbn1_W X nn HX HF). unfold ldexp_ok. destruct (isfin f x) eqn:Fx.
  - destruct (Req_bool_spec (val f x) 0) as [Z0|NZ].
    + rewrite Z0, Rabs_R0. split. 2: { intros _ K. exfalso. pose proof (bpow_gt_0 radix2 (2 ^ 31 - n - emax f + 1)). apply (Rlt_irrefl 0). eapply Rlt_le_trans; eauto. }
      apply (val_zero f Hx Fx) in Z0. pose proof (@scalbnW_special nn f (gtl X) (cbound X) (@gtl_int X HX HF) x (wrap (fw f) n) Hx (or_introl Z0)) as Q. cbv zeta in Q.
      assert (fnan (fw f) x = false) as N by (apply (fin_fnan Hx Fx)). rewrite N in Q. split; [intros _ _; apply bpow_gt_0|intros _; exact Q].
    + assert (Nz : fmag (fw f) x <> 0) by (intros Q; apply NZ, (val_zero f Hx Fx); exact Q).
      destruct (@scalbn_max x n Hx Fx Nz Hn) as [E K]. rewrite E. cbv zeta. rewrite (Rlt_bool_false (Rabs (rnd f _))) by exact K. destruct (Rlt_bool_spec (Rabs (val f x)) (bp (2 ^ 31 - n - emax f + 1))) as [L|L].
      * split; [split; auto|]. intros _ L2. exfalso. apply (Rlt_irrefl (Rabs (val f x))). eapply Rlt_le_trans; eauto.
      * split; [|auto]. split; [intros Q; exfalso; exact (szero_infs _ Q)|]. intros Q. exfalso. specialize (Q eq_refl). apply (Rlt_irrefl (Rabs (val f x))). eapply Rlt_le_trans; eauto.
  - split; [|discriminate]. split; [discriminate|]. intros _.
    pose proof (@scalbnW_special nn f (gtl X) (cbound X) (@gtl_int X HX HF) x (wrap (fw f) n) Hx (or_intror Fx)) as Q. cbv zeta in Q. rewrite (isnan_spec Hx). destruct (fnan (fw f) x); auto.
    rewrite isnan_spec; auto. rewrite <- (@scalbn1_W X nn HX HF), <- (xw_fw HX HF). apply scalbn1_word; auto; rewrite (xw_fw HX HF); auto. apply wrap_word. destruct (xf X); cbn; lia.
Qed.
End M.

(** The counts C31_ldexp_partial leaves out: floats, and doubles in 128-bit registers without SSE4.1, with a count n among the
    largest 2^8 (float) or 2^11 (double) ints. The result is right exactly for NaN, the infinities and |x| < 2^(2^31 - n - emax + 1);
    for every other x the sum of exponent and count wraps around and the result is the zero of the sign of x instead of infinity. *)
Theorem C31_ldexp_int_max_decided : forall nn X x n, xty_ok X -> is_int (xT X) = false -> shaped X x ->
  esz (xT X) = 4%nat \/ esz (xT X) = 8%nat /\ is256 X = false /\ sse41 (xc X) = false ->
  2 ^ 31 - 2 ^ eb (xf X) <= n < 2 ^ 31 ->
  let f := xf X in let lim := bp (2 ^ 31 - n - emax f + 1) in
  let P := fun x y => (ldexp_ok f x n y <-> (isfin f x = true -> (Rabs (val f x) < lim)%R)) /\
                      (isfin f x = true -> (lim <= Rabs (val f x))%R -> y = szero f (fsign (fw f) x)) in
  each1 X x (x_ldexp_s X (ieee nn) x n) P /\ each1 X x (x_scalbn_s X (ieee nn) x n) P /\ each1 X x (x_scalbln_s X (ieee nn) x n) P.
Proof.
  intros nn X x n HX HF Hx Hc Hn f lim P.
  assert (HB : cbound X = 2 ^ 31). { unfold cbound, l32, xw, ew. destruct Hc as [E|(E & E2 & E4)]; rewrite E; [reflexivity|]. rewrite E2, E4. reflexivity. }
  assert (E : each1 X x (x_scalbn_s X (ieee nn) x n) P). { apply (map1_each HX Hx (x_scalbn_s_ok HX HF nn n Hx)). intros v Hv. apply scalbn_max_elem; auto. }
  auto.
Qed.
Print Assumptions C31_ldexp_int_max_decided.
Example C31_ldexp_int_max_decided_case : xty_ok f32x5 /\ is_int (xT f32x5) = false /\
  (* n = INT_MAX - 100: 2^-27 still overflows to infinity, 2^-26 gives 0 *)
  x_ldexp_s f32x5 (ieee nans0) [[0x32000000; 0x32800000; 0xb2800000; 0x3f800000]; [0x7fc00000; 0; 0; 0]]%Z (2 ^ 31 - 1 - 100) =
    Ok [[0x7f800000; 0; 0x80000000; 0]; [0x7fc00000; 0; 0; 0]]%Z.
Proof. split; [xok|]. split; [reflexivity|]. vm_compute. reflexivity. Qed.
