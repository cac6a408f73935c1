(** C38: floor, ceil and trunc (float) without SSE4.1, decided for every finite number. *)
From Coq Require Import ZifyBool ZifyNat Reals Lra.
From Flocq Require Import Core IEEE754.BinarySingleNaN IEEE754.Binary.
From Verif Require Import Base Cxx Spec X86Vec X86 X86Lemmas X86Proofs X86Masks X86Ops X86Shift Fp FpLemmas FpOps FKern FMath FMathProofs FNext PropX86 PropFloat
  FLane FManip FManipLanes FFields FScalbn FRoute FRouteProofs PropManip Cvt CvtProofs PropCvt Logb LogbProofs PropLogb Round RoundProofs RoundLanes RoundSem RoundVec PropRound.
Set Implicit Arguments.
Local Open Scope nat_scope.

Lemma low32 y : y = 0xcf000000%Z -> word 32 y /\ isfin F32 y = true /\ val F32 y = IZR (- 2 ^ 31).
Proof.
  intros ->. assert (W : word (fw F32) 0xcf000000) by (split; [discriminate|reflexivity]). assert (F : isfin F32 0xcf000000 = true) by (vm_compute; reflexivity). split; [exact W|]. split; auto. rewrite (val_sgnr W F).
  change (fsign (fw F32) 0xcf000000) with true. change (fmag (fw F32) 0xcf000000) with 0x4f000000%Z. cbn [sgnr]. unfold mval. change (msig F32 0x4f000000) with (2 ^ 23)%Z. change (mex F32 0x4f000000) with 8%Z. rewrite <- (IZR_Zpower radix2) by lia. rewrite <- mult_IZR, <- opp_IZR. reflexivity.
Qed.
Lemma low64 y : y = 0xc1e0000000000000%Z -> word 64 y /\ isfin F64 y = true /\ val F64 y = IZR (- 2 ^ 31).
Proof.
  intros ->. assert (W : word (fw F64) 0xc1e0000000000000) by (split; [discriminate|reflexivity]). assert (F : isfin F64 0xc1e0000000000000 = true) by (vm_compute; reflexivity). split; [exact W|]. split; auto. rewrite (val_sgnr W F).
  change (fsign (fw F64) 0xc1e0000000000000) with true. change (fmag (fw F64) 0xc1e0000000000000) with 0x41e0000000000000%Z. cbn [sgnr]. unfold mval. change (msig F64 0x41e0000000000000) with (2 ^ 52)%Z. change (mex F64 0x41e0000000000000) with (- 21)%Z.
  change (2 ^ 52)%Z with (2 ^ 31 * 2 ^ 21)%Z. rewrite mult_IZR. replace (bpow radix2 (- 21)) with (/ IZR (2 ^ 21))%R by reflexivity. rewrite opp_IZR. field. apply IZR_neq. lia.
Qed.
Lemma lower64 y : y = 0xc1e0000000200000%Z -> word 64 y /\ isfin F64 y = true /\ val F64 y = IZR (- 2 ^ 31 - 1).
Proof.
  intros ->. assert (W : word (fw F64) 0xc1e0000000200000) by (split; [discriminate|reflexivity]). assert (F : isfin F64 0xc1e0000000200000 = true) by (vm_compute; reflexivity). split; [exact W|]. split; auto. rewrite (val_sgnr W F).
  change (fsign (fw F64) 0xc1e0000000200000) with true. change (fmag (fw F64) 0xc1e0000000200000) with 0x41e0000000200000%Z. cbn [sgnr]. unfold mval. change (msig F64 0x41e0000000200000) with ((2 ^ 31 + 1) * 2 ^ 21)%Z. change (mex F64 0x41e0000000200000) with (- 21)%Z.
  rewrite mult_IZR. replace (bpow radix2 (- 21)) with (/ IZR (2 ^ 21))%R by reflexivity. replace (- 2 ^ 31 - 1)%Z with (- (2 ^ 31 + 1))%Z by lia. rewrite opp_IZR. field. apply IZR_neq. lia.
Qed.
Lemma low_tx f : word (fw f) (fof_int f (- 2 ^ 31)) /\ isfin f (fof_int f (- 2 ^ 31)) = true /\ val f (fof_int f (- 2 ^ 31)) = IZR (- 2 ^ 31).
Proof. destruct f; [apply low32|apply low64]; vm_compute; reflexivity. Qed.

Lemma add0_low nn f : fadd nn f (fof_int f (- 2 ^ 31)) 0 = fof_int f (- 2 ^ 31).
Proof. destruct nn, f; vm_compute; reflexivity. Qed.
Lemma sub1_low nn f : let y := fsub nn f (fof_int f (- 2 ^ 31)) (fone (fw f)) in isfin f y = true /\ val f y = match f with F32 => IZR (- 2 ^ 31) | F64 => IZR (- 2 ^ 31 - 1) end.
Proof. destruct f; [apply low32|apply lower64]; destruct nn; vm_compute; reflexivity. Qed.
Lemma steps_neg nn f (b : bool) : (val f (fadd nn f (fof_int f (- 2 ^ 31)) (if b then fone (fw f) else 0%Z)) < 0)%R /\ (val f (fsub nn f (fof_int f (- 2 ^ 31)) (if b then fone (fw f) else 0%Z)) < 0)%R.
Proof.
  assert (G : forall y, word (fw f) y /\ isfin f y = true /\ fsign (fw f) y = true /\ (fmag (fw f) y =? 0)%Z = false -> (val f y < 0)%R). { intros y (Wy & Fy & Sy & Ny). apply neg_val; auto. lia. }
  split; apply G; destruct nn, f, b; unfold word; vm_compute; repeat split; discriminate.
Qed.

(** Right value exactly when the integer part of x fits a 32-bit integer; floor of doubles also at -2^31 - 1. *)
Theorem C38_sse2_decided : forall nn X x, xty_ok X -> is_int (xT X) = false -> shaped X x -> is256 X = false -> sse41 (xc X) = false ->
  each1 X x (x_ceil X nn x) (fun x y => isfin (xf X) x = true -> (rounds_val (xf X) Zceil x y <-> fits 32 (Ztrunc (val (xf X) x)))) /\
  each1 X x (x_floor X nn x) (fun x y => isfin (xf X) x = true -> (rounds_val (xf X) Zfloor x y <-> fits 32 (Ztrunc (val (xf X) x)) \/ (xf X = F64 /\ val (xf X) x = IZR (- 2 ^ 31 - 1)))) /\
  (esz (xT X) = 4 -> each1 X x (x_trunc X nn x) (fun x y => isfin (xf X) x = true -> (rounds_val (xf X) Ztrunc x y <-> fits 32 (Ztrunc (val (xf X) x))))).
Proof.
  intros nn X x HX HF Hx E2 E4. assert (E : native_round X = false) by (unfold native_round; now rewrite E2, E4).
  assert (T : forall v, word (fw (xf X)) v -> isfin (xf X) v = true -> ~ fits 32 (Ztrunc (val (xf X) v)) -> tx1 X nn v = fof_int (xf X) (- 2 ^ 31)) by (intros v Hv Fv C; unfold tx1; rewrite fto_int_bad; auto).
  assert (NF : forall r, ~ fits 32 (Ztrunc r) -> (IZR (2 ^ 31) <= r)%R \/ (r <= IZR (- 2 ^ 31 - 1))%R).
  { intros r C. destruct (Rle_lt_dec 0 r) as [L|L].
    - left. rewrite Ztrunc_floor in C by auto. assert (0 <= Zfloor r)%Z by now apply Zfloor_lub. unfold fits in C. apply Rle_trans with (2 := Zfloor_lb r). apply IZR_le. lia.
    - right. rewrite Ztrunc_ceil in C by lra. assert (Zceil r <= 0)%Z by (apply Zceil_glb; lra). unfold fits in C. apply Rle_trans with (1 := Zceil_ub r). apply IZR_le. lia. }
  assert (C31 : IZR (2 ^ 31) = 2147483648%R) by reflexivity. assert (C32 : IZR (- 2 ^ 31) = (-2147483648)%R) by reflexivity. assert (C33 : IZR (- 2 ^ 31 - 1) = (-2147483649)%R) by reflexivity.
  destruct (low_tx (xf X)) as (Wt & Ft & Vt).
  split; [apply x_ceil_each|split; [apply x_floor_each|intros E4'; apply x_trunc_each]]; auto; intros v Hv Fv; [unfold ceil1|unfold floor1|unfold truncl]; rewrite E, ?(xw_fw HX HF).
  - assert (D : fits 32 (Ztrunc (val (xf X) v)) \/ ~ fits 32 (Ztrunc (val (xf X) v))) by (unfold fits; lia).
    destruct D as [R|R]; [split; [auto|intros _; exact (ceil_sse2 nn Hv (conj Fv R))]|]. split; [|contradiction]. rewrite (T v Hv Fv R), (flt_val Wt Hv Ft Fv), Vt. intros [_ V]. exfalso. destruct (NF _ R) as [B|B].
    + pose proof (Zceil_ub (val (xf X) v)). rewrite <- V in H. destruct (@steps_neg nn (xf X) (Rlt_bool (IZR (- 2 ^ 31)) (val (xf X) v))) as [N _]. rewrite C31 in B. lra.
    + rewrite Rlt_bool_false in V by lra. rewrite add0_low, Vt in V. assert (Zceil (val (xf X) v) <= - 2 ^ 31 - 1)%Z by now apply Zceil_glb. apply eq_IZR in V. lia.
  - assert (D : fits 32 (Ztrunc (val (xf X) v)) \/ ~ fits 32 (Ztrunc (val (xf X) v))) by (unfold fits; lia).
    destruct D as [R|R]; [split; [auto|intros _; exact (floor_sse2 nn Hv (conj Fv R))]|]. rewrite (T v Hv Fv R), (flt_val Hv Wt Fv Ft), Vt. destruct (NF _ R) as [B|B].
    + split; [|intros [H|[_ H]]; [contradiction|lra]]. intros [_ V]. exfalso. destruct (@steps_neg nn (xf X) (Rlt_bool (val (xf X) v) (IZR (- 2 ^ 31)))) as [_ N]. rewrite V in N. assert (0 <= IZR (Zfloor (val (xf X) v)))%R; [|lra]. apply IZR_le, Zfloor_lub. rewrite C31 in B. cbn. lra.
    + rewrite Rlt_bool_true by lra. pose proof (Zfloor_lb (val (xf X) v)) as L. pose proof (@sub1_low nn (xf X)) as S. unfold rounds_val. destruct (xf X); destruct S as [Sf Sv].
      * rewrite Sv. split; [intros [_ V]; exfalso; rewrite <- V in L; lra|intros [H|[H _]]; [contradiction|discriminate]].
      * rewrite Sv. split; [intros [_ V]; right; split; auto; rewrite <- V in L; lra|intros [H|[_ H]]; [contradiction|]]. split; auto. rewrite H. now rewrite Zfloor_IZR.
  - assert (D : fits 32 (Ztrunc (val (xf X) v)) \/ ~ fits 32 (Ztrunc (val (xf X) v))) by (unfold fits; lia). rewrite E4'. cbn [Nat.eqb].
    destruct D as [R|R]; [split; [auto|intros _; exact (proj2 (txf_ok nn Hv (conj Fv R)))]|]. split; [|contradiction]. rewrite (T v Hv Fv R). intros [_ V]. exfalso. rewrite Vt in V. apply eq_IZR in V. rewrite <- V in R. apply R. unfold fits. lia.
Qed.
Print Assumptions C38_sse2_decided.
(** 2^31, -2^31 - 1, -2^31 - 1/2, -2^31 - 2: floor is right for the second and third only *)
Example C38_sse2_decided_case : let X := {| xc := sse2; xT := {| esz := 8; ek := KFloat |}; xvs := 16; xN := 4 |} in xty_ok X /\
  x_floor X nans0 [[0x41e0000000000000; 0xc1e0000000200000]; [0xc1e0000000100000; 0xc1e0000000400000]]%Z = Ok [[0xc1e0000000000000; 0xc1e0000000200000]; [0xc1e0000000200000; 0xc1e0000000200000]]%Z.
Proof. split; [xok|vm_compute; reflexivity]. Qed.
