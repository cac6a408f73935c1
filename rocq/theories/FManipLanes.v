(** The kernels of FManip.v act on every lane separately: their lane functions. *)
From Coq Require Import ZifyBool ZifyNat.
From Verif Require Import Base Cxx Spec X86Vec X86 X86Lemmas X86Proofs X86Ops X86Shift Fp FpLemmas FpOps FKern FMath FMathProofs FLane FManip.
Set Implicit Arguments.

Section Gt.
Context {X : xty} (HX : xty_ok X) (HF : is_int (xT X) = false) {k : nat}.
Local Notation w := (xw X).
Definition l32 : bool := (esz (xT X) =? 8) && negb (is256 X) && negb (sse41 (xc X)).
Definition gtl (x y : Z) : bool := if l32 then (sgn 32 (x mod 2 ^ 32) >? sgn 32 (y mod 2 ^ 32))%Z else (sgn w x >? sgn w y)%Z.
Lemma gtl_vec a b : wfv X a -> wfv X b -> cmp_gt_l32 X a b = vmap2 (fun x y => mlane w (gtl x y)) a b.
Proof.
  intros Ha Hb. unfold cmp_gt_l32, gtl, l32. destruct (esz (xT X) =? 8) eqn:E8; cbn [andb].
  2:{ exact (@cmp_gt_lanes (as_int X) a b (as_int_ok HX) Ha Hb). }
  apply Nat.eqb_eq in E8. destruct (is256 X) eqn:E2; cbn [andb negb].
  { exact (@cmp_gt_lanes (as_int X) a b (as_int_ok HX) Ha Hb). }
  assert (Ew : w = 64%Z). { unfold xw, ew. rewrite E8. reflexivity. }
  destruct (sse41 (xc X)); cbn [andb negb]. { unfold cmpgt_epi. now rewrite Ew. }
  assert (Ee : ext X = 2). { destruct (@w8 X HX E8) as [_ He]. rewrite E2 in He. exact He. }
  destruct Ha as [La Wa], Hb as [Lb Wb]. rewrite Ee in La, Lb.
  destruct a as [|a0 [|a1 [|]]]; try discriminate. destruct b as [|b0 [|b1 [|]]]; try discriminate.
  cbn -[Z.pow mlane sgn Z.modulo xw]. rewrite Ew. rewrite <- !mlane_64. reflexivity.
Qed.
Lemma lm_gtl a b x y : L X k a x -> L X k b y -> LM X k (cmp_gt_l32 X a b) (gtl x y).
Proof. intros Ha Hb. rewrite gtl_vec by eauto using L_wf. now apply lm_vmap2. Qed.
End Gt.
Arguments gtl : clear implicits. Arguments l32 : clear implicits.

Section Scalbn.
Open Scope Z_scope.
Context (X : xty) (nn : nans).
Local Notation w := (xw X).
Local Notation f := (xf X).
Definition scalbn1 (x n : Z) : Z :=
  let m := mant w in
  let em := wrap w (exp_mask w) in
  let x_exp := Z.land (lshr_bits m x) em in
  let norm_x := fmul nn f x (exp_mult w) in
  let ne := Z.land (lshr_bits m norm_x) em in
  let ne := (ne - wrap w (m + 2)) mod 2 ^ w in
  let sub := x_exp =? 0 in
  let ne := Z.lor x_exp (if sub then ne else 0) in
  let norm_i := if sub then norm_x else x in
  let fwd := feq w x 0 || (ne =? em) in
  let ne := (ne + n) mod 2 ^ w in
  let ovf := negb fwd && (gtl X n (wrap w max_scalbn) || gtl X ne (wrap w (exp_mask w - 1))) in
  let unf := negb fwd && (gtl X (wrap w (- max_scalbn)) n || gtl X (wrap w (- m - 1)) ne) in
  let nr := gtl X ne 0 in
  let ne := (ne + (if nr then 0 else wrap w (m + 2))) mod 2 ^ w in
  let ne := shl_bits w m ne in
  let y := Z.lor (Z.land norm_i (wrap w (- 1 - exp_mask w * 2 ^ m))) ne in
  let y := if fwd then x else y in
  let nr := negb fwd && nr in
  let y := if nr then y else fmul nn f (if nr then 0 else y) (exp_multm w) in
  let sg := sbit f (fsign w x) in
  let y := if ovf then fmul nn f (huge w) (Z.lor (huge w) sg) else y in
  if unf then fmul nn f (tiny w) (Z.lor (tiny w) sg) else y.
Context (HX : xty_ok X) (HF : is_int (xT X) = false) {k : nat}.
Lemma w_cases : w = 32 \/ w = 64.
Proof. apply float_w; auto. apply HX. Qed.
Lemma li_ifill c : (k < ext X)%nat -> L X k (ifill (as_int X) c) (wrap w c).
Proof. intros Hk. apply li_fill; auto. apply wrap_word. destruct w_cases as [-> | ->]; lia. Qed.
Lemma lf_const c : (k < ext X)%nat -> word w c -> L X k (v_fill X c) c.
Proof. intros. apply l_fill; auto. Qed.
Lemma cw : word w (exp_mult w) /\ word w (exp_multm w) /\ word w (huge w) /\ word w (tiny w) /\ word w (fone w).
Proof. unfold word. destruct w_cases as [-> | ->]; cbn; lia. Qed.
Lemma mant_pos : 0 <= mant w. Proof. unfold mant. destruct (w =? 32); lia. Qed.
Lemma l_uflow y s m vy vs vm : L X k y vy -> L X k s vs -> LM X k m vm ->
  L X k (except_uflow X (ieee nn) y s m) (if vm then fmul nn f (tiny w) (Z.lor (tiny w) vs) else vy).
Proof.
  intros Hy Hs Hm. pose proof (L_lt Hy). pose proof (proj1 (proj2 (proj2 (proj2 cw)))). unfold except_uflow. apply l_blend; auto. apply lf_mul; auto using lf_const.
  apply l_or; auto using lf_const.
Qed.
Lemma l_oflow y s m vy vs vm : L X k y vy -> L X k s vs -> LM X k m vm ->
  L X k (except_oflow X (ieee nn) y s m) (if vm then fmul nn f (huge w) (Z.lor (huge w) vs) else vy).
Proof.
  intros Hy Hs Hm. pose proof (L_lt Hy). pose proof (proj1 (proj2 (proj2 cw))). unfold except_oflow. apply l_blend; auto. apply lf_mul; auto using lf_const.
  apply l_or; auto using lf_const.
Qed.
(** [if (test_mask(m)) y = except(y, s, m)] *)
Lemma if_test (a b : vec) m vy vz (c : bool) : L X k a vy -> (c = false -> vz = vy) -> L X k b vz -> LM X k m c ->
  L X k (if test_mask (as_int X) m then b else a) vz.
Proof.
  intros Ha Hz Hb Hm. destruct (test_mask (as_int X) m) eqn:E; auto.
  destruct Hm as (bs & Lbs & -> & Hc). apply (@test_none (as_int X) (as_int_ok HX) bs) in E.
  rewrite Hz; auto. exact (proj1 (Forall_forall _ _) E c (nth_error_In _ _ Hc)).
Qed.

Lemma k_scalbn_lane x n vx vn : L X k x vx -> L X k n vn -> L X k (k_scalbn X (ieee nn) x n) (scalbn1 vx vn).
Proof.
  intros Hx Hn. pose proof (L_lt Hx) as Hk. pose proof mant_pos as Hm. destruct cw as (C1 & C2 & _).
  unfold k_scalbn, scalbn1. cbv zeta.
  set (m := mant w) in *. set (em := wrap w (exp_mask w)).
  assert (H1 := l_and HX (li_shiftr Hm Hx) (li_ifill (exp_mask w) Hk)). fold em in H1.
  set (x_exp := Z.land (lshr_bits m vx) em) in *.
  assert (H2 := lmf_eq HX HF Hx (l_zero HX Hk)).
  assert (H3 := lf_mul HX HF nn Hx (lf_const Hk C1)). set (nx := fmul nn f vx (exp_mult w)) in *.
  assert (H4 := li_sub HX (ieee nn) (l_and HX (li_shiftr Hm H3) (li_ifill (exp_mask w) Hk)) (li_ifill (m + 2) Hk)). fold em in H4.
  set (ne1 := (Z.land (lshr_bits m nx) em - wrap w (m + 2)) mod 2 ^ w) in *.
  assert (H5 := lmi_eq HX H1 (li_zero HX Hk)).
  assert (H6 := l_or HX H1 (l_sel HX H5 H4)).
  assert (H7 := li_blend HX Hx H3 H5).
  set (sub := x_exp =? 0) in *. set (ne2 := Z.lor x_exp (if sub then ne1 else 0)) in *. set (ni := if sub then nx else vx) in *.
  assert (H8 := lm_or HX H2 (lmi_eq HX H6 (li_ifill (exp_mask w) Hk))). fold em in H8.
  set (fwd := feq w vx 0 || (ne2 =? em)) in *.
  assert (H9 := li_add HX (ieee nn) H6 Hn). set (ne3 := (ne2 + vn) mod 2 ^ w) in *.
  assert (H10 := lm_andnot H8 (lm_or HX (lm_gtl HX Hn (li_ifill max_scalbn Hk)) (lm_gtl HX H9 (li_ifill (exp_mask w - 1) Hk)))).
  assert (H11 := lm_andnot H8 (lm_or HX (lm_gtl HX (li_ifill (- max_scalbn) Hk) Hn) (lm_gtl HX (li_ifill (- m - 1) Hk) H9))).
  assert (H12 := lm_gtl HX H9 (li_zero HX Hk)).
  set (ovf := negb fwd && _) in *. set (unf := negb fwd && (gtl X (wrap w (- max_scalbn)) vn || _)) in *. set (nr := gtl X ne3 0) in *.
  assert (H13 := li_add HX (ieee nn) H9 (l_seln HX H12 (li_ifill (m + 2) Hk))).
  set (ne4 := (ne3 + _) mod 2 ^ w) in *.
  assert (H14 := l_or HX (l_and HX H7 (li_ifill (- 1 - exp_mask w * 2 ^ m) Hk)) (li_shiftl HX m H13)).
  set (y0 := Z.lor (Z.land ni (wrap w (- 1 - exp_mask w * 2 ^ m))) (shl_bits w m ne4)) in *.
  assert (H15 := l_blend HX H14 Hx H8). set (y1 := if fwd then vx else y0) in *.
  assert (H16 := lm_andnot H8 H12). set (nr' := negb fwd && nr) in *.
  assert (H17 := l_blend HX (lf_mul HX HF nn (l_seln HX H16 H15) (lf_const Hk C2)) H15 H16).
  set (y2 := if nr' then y1 else fmul nn f (if nr' then 0 else y1) (exp_multm w)) in *.
  assert (H18 := lf_sign HX HF Hx).
  assert (H19 := l_oflow H17 H18 H10). unshelve epose proof (if_test H17 _ H19 H10) as H20; [intros E; now rewrite E|].
  assert (H21 := l_uflow H20 H18 H11). unshelve epose proof (if_test H20 _ H21 H11) as H22; [intros E; now rewrite E|]. exact H22.
Qed.
End Scalbn.
