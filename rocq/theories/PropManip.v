(** frexp, ldexp/scalbn/scalbln, modf (C30, C31, C33) and the routing of exponent elements (C46).

    [xf X] is the IEEE format of the element type; [val], [isfin], [isnanb], [rnd] are those of Fp.v (Flocq);
    [fsign (fw f) x] is the sign bit; [infs f s] and [szero f s] are the infinity and the zero with sign s. *)
From Coq Require Import ZifyBool ZifyNat Reals Lra.
From Flocq Require Import Core IEEE754.BinarySingleNaN IEEE754.Binary.
From Verif Require Import Base Cxx Spec X86Vec X86 X86Lemmas X86Proofs X86Masks X86Ops X86Shift Fp FpLemmas FpOps FKern FMath FMathProofs FNext PropX86 PropFloat
  FLane FManip FManipLanes FFields FScalbn FFrexp FModf FRoute FRouteProofs.
Set Implicit Arguments.
Local Open Scope nat_scope.

(** [J] is simd<int, ABI> for the ABI of [X]: same number of elements, same register width - except for
    aligned_vector<N, 0>, where the width depends on the size of the vector and 3 or 4 doubles use a 256-bit register *)
Definition int_vec_of (X J : xty) : Prop :=
  xc J = xc X /\ xN J = xN X /\ esz (xT J) = 4 /\ is_int (xT J) = true /\
  (xvs J = xvs X \/ (esz (xT X) = 8 /\ xvs X = 32 /\ xvs J = 16 /\ (xN X = 3 \/ xN X = 4))).
(** [J] is simd<long, ABI> for the ABI of [X] *)
Definition long_vec_of (X J : xty) : Prop :=
  xc J = xc X /\ xN J = xN X /\ esz (xT J) = 8 /\ is_int (xT J) = true /\
  (xvs J = xvs X \/ (esz (xT X) = 4 /\ xvs J = 32 /\ xvs X = 16 /\ (xN J = 3 \/ xN J = 4))).

Lemma fin_word f x : word (fw f) x -> (0 <= fmag (fw f) x)%Z.
Proof. intros _. unfold fmag. apply Z.mod_pos_bound. destruct f; reflexivity. Qed.
Lemma val_zero f x : word (fw f) x -> isfin f x = true -> (val f x = 0%R <-> fmag (fw f) x = 0%Z).
Proof.
  intros Hx Fx. rewrite (val_key Hx Fx). split.
  - intros H. rewrite <- (@mval_0 f) in H. change (mval f 0) with (kval f 0) in H. apply (kval_eq_iff (f := f)) in H. unfold fkey in H. destruct (fsign _ x); lia.
  - intros H. unfold fkey. rewrite H. destruct (fsign _ x); apply mval_0.
Qed.
Lemma abs_val f x : word (fw f) x -> isfin f x = true -> Rabs (val f x) = mval f (fmag (fw f) x).
Proof.
  intros Hx Fx. rewrite (val_mag Hx Fx). pose proof (mval_nonneg (f := f) (fmag (fw f) x)).
  destruct (fsign _ x); [rewrite Rabs_Ropp|]; apply Rabs_pos_eq; auto.
Qed.
Lemma mval_le f i j : (0 <= i)%Z -> (0 <= j)%Z -> (mval f i <= mval f j)%R <-> (i <= j)%Z.
Proof.
  intros Hi Hj. assert (K : forall k, (0 <= k)%Z -> mval f k = kval f k). { intros k Hk. unfold kval. replace (k <? 0)%Z with false by lia. reflexivity. }
  rewrite (K i Hi), (K j Hj). apply kval_le_iff.
Qed.
(** a magnitude with exponent field e and mantissa 0 *)
Lemma mval_pow f e : (1 <= e)%Z -> mval f (2 ^ mw f * e) = bpow radix2 (e - (2 ^ (eb f - 1) - 1)).
Proof.
  intros He. pose proof (@mm_pos f). assert (A : mexp f (2 ^ mw f * e) = e). { unfold mexp. rewrite Z.mul_comm. apply Z.div_mul. lia. }
  assert (B : mman f (2 ^ mw f * e) = 0%Z). { unfold mman. rewrite Z.mul_comm. apply Z.mod_mul. lia. }
  unfold mval, msig, mex. rewrite A, B. replace (e =? 0)%Z with false by lia. rewrite Z.max_l by lia. rewrite Z.add_0_l.
  change (2 ^ mw f)%Z with (Z.pow (radix_val radix2) (mw f)). rewrite IZR_Zpower by (destruct f; cbn; lia).
  rewrite <- bpow_plus. f_equal. rewrite emin_off. lia.
Qed.
Lemma norm_exp_field f x : word (fw f) x -> isnormb f x = true -> isfin f x = true /\ fmag (fw f) x <> 0%Z /\ mexp f (fmag (fw f) x) <> 0%Z.
Proof.
  intros Hx H. unfold isnormb in H. apply andb_true_iff in H. destruct H as [Fx H]. split; auto.
  assert (L : (bpow radix2 (2 - emax f) <= mval f (fmag (fw f) x))%R). { rewrite <- (abs_val f Hx Fx). destruct (Rle_bool_spec (bpow radix2 (2 - emax f)) (Rabs (val f x))); auto. discriminate. }
  rewrite <- mval_minnorm in L. apply mval_le in L; [| pose proof (@mm_pos f); lia | apply fin_word; auto].
  pose proof (@mm_pos f). unfold mexp. split; [lia|]. assert (1 <= fmag (fw f) x / 2 ^ mw f)%Z; [|lia]. apply Z.div_le_lower_bound; lia.
Qed.

(** *** Lifting to vectors *)
Section Vec.
Context {X : xty} (HX : xty_ok X) (HF : is_int (xT X) = false) (nn : nans).
Lemma elems_map (g : Z -> Z) x : elems X (map (map g) x) = map g (elems X x).
Proof. unfold elems. rewrite <- firstn_map, concat_map. reflexivity. Qed.
Lemma shaped_map (g : Z -> Z) x : (forall v, word (xw X) v -> word (xw X) (g v)) -> shaped X x -> shaped X (map (map g) x).
Proof.
  intros Hg [L W]. split. now rewrite map_length. apply Forall_forall. intros v Hv. apply in_map_iff in Hv. destruct Hv as (u & <- & Hu).
  destruct (proj1 (Forall_forall _ _) W u Hu) as [Lu Wu]. split. now rewrite map_length. apply Forall_forall. intros y Hy. apply in_map_iff in Hy.
  destruct Hy as (z & <- & Hz). apply Hg. exact (proj1 (Forall_forall _ _) Wu z Hz).
Qed.
Lemma kern_map (K : vec -> vec) g x : (forall v, wfv X v -> K v = map g v) -> shaped X x -> map K x = map (map g) x.
Proof. intros HK [_ W]. apply map_ext_in. intros v Hv. apply HK. exact (proj1 (Forall_forall _ _) W v Hv). Qed.
Lemma lane_word (K : vec -> vec) g : (forall k a x, k < ext X -> L X k a x -> L X k (K a) (g x)) -> forall v, word (xw X) v -> word (xw X) (g v).
Proof. intros H v Hv. pose proof (ext_pos HX) as He. exact (L_word (H _ _ _ He (@l_fill X 0 v He Hv))). Qed.

(** frexp: fractions and exponents element by element *)
Lemma x_frexp_ok J x d : xty_ok J -> int_vec_of X J -> shaped X x -> shaped J d ->
  exists e, x_frexp X J (ieee nn) x d = Ok (map (map (fun v => fst (frexp1 X nn v))) x, e) /\
    shaped X (map (map (fun v => fst (frexp1 X nn v))) x) /\ shaped J e /\
    elems J e = map (fun v => lo32 (snd (frexp1 X nn v))) (elems X x).
Proof.
  intros HJ (EC & EN & E4 & EI & EV) Hx Hd.
  assert (L1 : forall k a v, k < ext X -> L X k a v -> L X k (fst (k_frexp X (ieee nn) a)) (fst (frexp1 X nn v))).
  { intros k a v _ Hv. exact (proj1 (k_frexp_lane nn HX HF Hv)). }
  assert (L2 : forall k a v, k < ext X -> L X k a v -> L X k (snd (k_frexp X (ieee nn) a)) (snd (frexp1 X nn v))).
  { intros k a v _ Hv. exact (proj2 (k_frexp_lane nn HX HF Hv)). }
  assert (M1 := kernel1L HX _ _ L1). assert (M2 := kernel1L HX _ _ L2). pose proof (@lane_word _ _ L1) as W1. pose proof (@lane_word _ _ L2) as W2.
  unfold x_frexp. rewrite (@kern_map _ _ x M1 Hx), (@kern_map _ _ x M2 Hx).
  set (es := map (map (fun v => snd (frexp1 X nn v))) x). assert (Se : shaped X es) by (apply shaped_map; auto).
  assert (Ee : elems X es = map (fun v => snd (frexp1 X nn v)) (elems X x)) by apply elems_map.
  assert (Q : exists d', put_exps X J es d = Ok d' /\ shaped J d' /\ elems J d' = map lo32 (elems X es)).
  { assert (E84 : esz (xT X) = 8 \/ esz (xT X) = 4). { destruct HX as (_ & ET & _). destruct (@float_w X ET HF) as [E|E]; unfold xw, ew in E; lia. }
    destruct E84 as [X8|X4].
    - apply put_exps_ok; auto; [|exact (proj1 Se)|exact (proj2 Se)]. unfold same_abi. rewrite EC, EN, E4, X8, EI, HF. repeat split; auto.
      destruct EV as [V|(_ & V1 & V2 & V3)]; auto.
    - exists es. unfold put_exps. rewrite X4. cbn [Nat.eqb]. split; auto.
      assert (EV' : xvs J = xvs X) by (destruct EV as [V|(V0 & _)]; [auto|congruence]).
      split. { unfold shaped, wfv, dsz, ext, xw, ew in *. rewrite E4, EN, EV'. rewrite X4 in Se. exact Se. }
      assert (Q : elems J es = elems X es) by (unfold elems; now rewrite EN). rewrite Q. symmetry. rewrite <- map_id. apply map_ext_in.
      intros v Hv. apply In_nth_error in Hv. destruct Hv as [i Hi]. pose proof (el_word _ Se Hi) as Wv. unfold word, xw, ew in Wv. rewrite X4 in Wv. apply Z.mod_small. exact Wv. }
  destruct Q as (e & -> & Sd & Ed). cbn [bind]. exists e. split; auto. split; [apply shaped_map; auto|]. split; auto.
  rewrite Ed, Ee, map_map. reflexivity.
Qed.
End Vec.

(** *** C30: frexp *)
Definition frexp_ok (f : fmt) (x y e : Z) : Prop :=
  if isfin f x then
    if Req_bool (val f x) 0 then y = x /\ e = 0%Z
    else isfin f y = true /\ fsign (fw f) y = fsign (fw f) x /\ (/ 2 <= Rabs (val f y) < 1)%R /\ val f x = (val f y * bpow radix2 e)%R
  else y = x.

(** frexp is defined and P holds between element i of x, the fraction and the exponent (as an int) *)
Definition frexp_each (X J : xty) (x : list vec) (r : res (list vec * list vec)) (P : Z -> Z -> Z -> Prop) : Prop :=
  exists y e, r = Ok (y, e) /\ shaped X y /\ shaped J e /\
    forall i xi, nth_error (elems X x) i = Some xi ->
      exists yi ei, nth_error (elems X y) i = Some yi /\ nth_error (elems J e) i = Some ei /\ P xi yi (sgn 32 ei).

Lemma sgn_lo32 W w : (32 <= W)%Z -> word W w -> (- 2 ^ 31 <= sgn W w < 2 ^ 31)%Z -> sgn 32 (lo32 w) = sgn W w.
Proof.
  intros HW Hw Hs. rewrite <- (@wrap_sgn W w) at 1; [|lia|exact Hw]. unfold lo32. change ((wrap W (sgn W w)) mod 2 ^ 32)%Z with (wrap 32 (wrap W (sgn W w))).
  rewrite wrap_wrap_le by lia. apply sgn_wrap; lia.
Qed.
Lemma mval_ge_emin f k : (0 < k)%Z -> (bpow radix2 (emin f) <= mval f k)%R.
Proof.
  intros Hk. replace (bpow radix2 (emin f)) with (mval f 1). { apply mval_le; lia. }
  replace 1%Z with (0 + 1)%Z at 1 by lia. rewrite mval_succ by lia. rewrite mval_0, Rplus_0_l. f_equal. unfold mex, mexp. rewrite Z.div_0_l by (pose proof (@mm_pos f); lia).
  rewrite Z.max_r; lia.
Qed.
(** the exponent of a decomposition of a finite number fits an int *)
Lemma frexp_range f x y e : word (fw f) x -> isfin f x = true -> fmag (fw f) x <> 0%Z -> (/ 2 <= Rabs (val f y) < 1)%R -> val f x = (val f y * bpow radix2 e)%R ->
  (emin f < e <= emax f)%Z.
Proof.
  intros Hx Fx Nz [Y1 Y2] V. pose proof (fin_word f Hx) as Pm.
  assert (A : Rabs (val f x) = (Rabs (val f y) * bpow radix2 e)%R). { rewrite V, Rabs_mult, (Rabs_pos_eq (bpow radix2 e)). reflexivity. apply bpow_ge_0. }
  pose proof (bpow_gt_0 radix2 e) as Pe. split.
  - apply (lt_bpow radix2). apply Rle_lt_trans with (Rabs (val f x)).
    + rewrite (abs_val f Hx Fx). apply mval_ge_emin. lia.
    + rewrite A. rewrite <- (Rmult_1_l (bpow radix2 e)) at 2. apply Rmult_lt_compat_r; auto.
  - assert (e - 1 < emax f)%Z; [|lia]. apply (lt_bpow radix2). eapply Rle_lt_trans; [|exact (@val_lt_emax f x)].
    rewrite A. replace (bpow radix2 (e - 1)) with (/ 2 * bpow radix2 e)%R. { apply Rmult_le_compat_r; lra. }
    replace e with (1 + (e - 1))%Z at 1 by lia. rewrite bpow_plus. change (bpow radix2 1) with 2%R. lra.
Qed.

(** what frexp returns, for every element; [d] is 0 except that for subnormal numbers the returned exponent is too small by
    6 (float) or 9 (double) *)
Definition frexp_slack (f : fmt) (x : Z) : Z := if isfin f x && negb (isnormb f x) then match f with F32 => 6 | F64 => 9 end else 0%Z.
Lemma subn f x : word (fw f) x -> isfin f x = true -> fmag (fw f) x <> 0%Z -> isnormb f x = negb (mexp f (fmag (fw f) x) =? 0)%Z.
Proof.
  intros Hx Fx Nz. destruct (isnormb f x) eqn:E. { destruct (norm_exp_field f Hx E) as (_ & _ & H). lia. }
  unfold isnormb in E. rewrite Fx in E. cbn [andb] in E. pose proof (fin_word f Hx) as Pm. pose proof (@mm_pos f).
  destruct (Rle_bool_spec (bpow radix2 (2 - emax f)) (Rabs (val f x))) as [|Lt]; [discriminate|]. rewrite (abs_val f Hx Fx), <- mval_minnorm in Lt.
  assert (~ (2 ^ mw f <= fmag (fw f) x)%Z). { intros Q. apply (mval_le f) in Q; lia || lra. }
  unfold mexp. rewrite Z.div_small by lia. reflexivity.
Qed.
Lemma frexp_elem X nn x : xty_ok X -> is_int (xT X) = false -> word (xw X) x ->
  let f := xf X in let y := fst (frexp1 X nn x) in let e := sgn 32 (lo32 (snd (frexp1 X nn x))) in
  if isfin f x then
    if Req_bool (val f x) 0 then y = x /\ e = 0%Z
    else isfin f y = true /\ fsign (fw f) y = fsign (fw f) x /\ (/ 2 <= Rabs (val f y) < 1)%R /\ val f x = (val f y * bpow radix2 (e + frexp_slack f x))%R
  else y = x.
Proof.
  intros HX HF Hx f y e. unfold y, e. rewrite (@frexp1_W X nn x HX HF). fold f. rewrite (xw_fw HX HF) in Hx. fold f in Hx.
  destruct (isfin f x) eqn:Fx.
  - destruct (Req_bool_spec (val f x) 0) as [Z0|NZ].
    + apply (val_zero f Hx Fx) in Z0. destruct (frexpW_special nn Hx (or_introl Z0)) as [-> H]. rewrite (H Z0). auto.
    + assert (Nz : fmag (fw f) x <> 0%Z) by (intros Q; apply NZ, (val_zero f Hx Fx); exact Q).
      destruct (frexpW_fin nn Hx Fx Nz) as (A & B & C & D). cbv zeta in *. split; auto. split; auto. split; auto.
      assert (DD : (if mexp f (fmag (fw f) x) =? 0 then fw f - 1 - (mw f + 2) else 0)%Z = frexp_slack f x).
      { unfold frexp_slack. rewrite Fx, (subn f Hx Fx Nz). destruct (mexp f _ =? 0)%Z; cbn [negb andb]; destruct f; reflexivity. }
      rewrite DD in D. pose proof (@frexp_range f x _ _ Hx Fx Nz C D) as R.
      rewrite (@sgn_lo32 (fw f)). { exact D. } { destruct f; cbn; lia. }
      { pose proof (lane_word HX (fun v => snd (k_frexp X (ieee nn) v)) (fun v => snd (frexp1 X nn v))) as LW. unfold f in *. rewrite <- (@frexp1_W X nn x HX HF), <- (xw_fw HX HF).
        apply LW. intros k a v _ Hv. exact (proj2 (k_frexp_lane nn HX HF Hv)). rewrite (xw_fw HX HF). exact Hx. }
      assert (0 <= frexp_slack f x <= 9)%Z by (unfold frexp_slack; destruct f, (_ && _); lia). assert (-1100 < emin f /\ emax f <= 1024)%Z by (clear; destruct f; cbn; lia). lia.
  - destruct (frexpW_special nn Hx (or_intror Fx)) as [-> _]. reflexivity.
Qed.

(** Partial: proved for every element that is not subnormal (normal, zero, infinite or NaN). *)
Theorem C30_frexp_partial : forall nn X J x d, xty_ok X -> xty_ok J -> is_int (xT X) = false -> int_vec_of X J -> shaped X x -> shaped J d ->
  frexp_each X J x (x_frexp X J (ieee nn) x d)
    (fun x y e => isfin (xf X) x = false \/ val (xf X) x = 0%R \/ isnormb (xf X) x = true -> frexp_ok (xf X) x y e).
Proof.
  intros nn X J x d HX HJ HF HS Hx Hd. destruct (x_frexp_ok HX HF nn HJ HS Hx Hd) as (e & -> & Sy & Se & Ee).
  eexists; exists e. split; [reflexivity|]. split; auto. split; auto. intros i xi Hi. rewrite elems_map, Ee.
  exists (fst (frexp1 X nn xi)), (lo32 (snd (frexp1 X nn xi))). split; [exact (map_nth_error _ _ _ Hi)|]. split; [exact (map_nth_error _ _ _ Hi)|].
  intros C. pose proof (frexp_elem nn HX HF (el_word _ Hx Hi)) as E. cbv zeta in E. unfold frexp_ok. destruct (isfin (xf X) xi) eqn:Fx; auto.
  destruct (Req_bool_spec (val (xf X) xi) 0) as [|NZ]; auto. destruct C as [C|[C|C]]; try congruence.
  unfold frexp_slack in E. rewrite C, Fx in E. cbn [negb andb] in E. rewrite Z.add_0_r in E. exact E.
Qed.
Print Assumptions C30_frexp_partial.
(** Subnormals: the fraction is right, the exponent is too small by 6 (float) or 9 (double). *)
Theorem C30_frexp_subnormal_partial : forall nn X J x d, xty_ok X -> xty_ok J -> is_int (xT X) = false -> int_vec_of X J -> shaped X x -> shaped J d ->
  frexp_each X J x (x_frexp X J (ieee nn) x d)
    (fun x y e => isfin (xf X) x = true -> val (xf X) x <> 0%R -> isnormb (xf X) x = false ->
      frexp_ok (xf X) x y (e + match xf X with F32 => 6 | F64 => 9 end)%Z).
Proof.
  intros nn X J x d HX HJ HF HS Hx Hd. destruct (x_frexp_ok HX HF nn HJ HS Hx Hd) as (e & -> & Sy & Se & Ee).
  eexists; exists e. split; [reflexivity|]. split; auto. split; auto. intros i xi Hi. rewrite elems_map, Ee.
  exists (fst (frexp1 X nn xi)), (lo32 (snd (frexp1 X nn xi))). split; [exact (map_nth_error _ _ _ Hi)|]. split; [exact (map_nth_error _ _ _ Hi)|].
  intros Fx NZ Sn. pose proof (frexp_elem nn HX HF (el_word _ Hx Hi)) as E. cbv zeta in E. unfold frexp_ok. rewrite Fx in *.
  rewrite Req_bool_false in * by auto. unfold frexp_slack in E. rewrite Sn, Fx in E. exact E.
Qed.
Print Assumptions C30_frexp_subnormal_partial.

(** Cases: three doubles with AVX and aligned_vector<3, 0> (ints in a 128-bit register) and five floats. *)
Definition i32x3 : xty := {| xc := avx1; xT := {| esz := 4; ek := KInt true |}; xvs := 16; xN := 3 |}.
Definition i32x5 : xty := {| xc := sse4; xT := {| esz := 4; ek := KInt true |}; xvs := 16; xN := 5 |}.
Lemma i32x3_ok : xty_ok i32x3. Proof. xok. Qed.
Lemma i32x5_ok : xty_ok i32x5. Proof. xok. Qed.
Example C30_case : int_vec_of f64x3 i32x3 /\ int_vec_of f32x5 i32x5 /\ shaped i32x3 [[7; 7; 7; 7]]%Z /\
  x_frexp f64x3 i32x3 (ieee nans0) [[0x4028000000000000; 0xbfe8000000000000; 0; 0]]%Z [[7; 7; 7; 7]]%Z =      (* 12, -0.75, 0 *)
    Ok ([[0x3fe8000000000000; 0xbfe8000000000000; 0; 0]], [[4; 0; 0; 0]])%Z /\
  isnormb F64 0x4028000000000000 = true.
Proof.
  split; [repeat split; right; repeat split; auto|]. split; [repeat split; left; reflexivity|]. split; [shp|]. split; [vm_compute; reflexivity|].
  rewrite normal_bits by (split; cbn; lia). reflexivity.
Qed.
(** The claim of the documentation fails for every subnormal element. *)
Theorem C30_frexp_subnormal_refuted : forall nn X J x d, xty_ok X -> xty_ok J -> is_int (xT X) = false -> int_vec_of X J -> shaped X x -> shaped J d ->
  frexp_each X J x (x_frexp X J (ieee nn) x d)
    (fun x y e => isfin (xf X) x = true -> val (xf X) x <> 0%R -> isnormb (xf X) x = false -> ~ frexp_ok (xf X) x y e).
Proof.
  intros nn X J x d HX HJ HF HS Hx Hd. destruct (C30_frexp_subnormal_partial nn HX HJ HF HS Hx Hd) as (y & e & E & Sy & Se & H).
  exists y, e. repeat (split; auto). intros i xi Hi. destruct (H i xi Hi) as (yi & ei & A & B & C). exists yi, ei. split; auto. split; auto.
  intros Fx NZ Sn Q. specialize (C Fx NZ Sn). unfold frexp_ok in *. rewrite Fx, Req_bool_false in * by auto.
  destruct Q as (_ & _ & R1 & V1), C as (_ & _ & _ & V2). set (s := match xf X with F32 => 6 | F64 => 9 end%Z) in *. assert (0 < s)%Z by (unfold s; destruct (xf X); lia).
  rewrite V1 in V2. assert (NY : val (xf X) yi <> 0%R). { intros Q. rewrite Q, Rabs_R0 in R1. lra. }
  apply Rmult_eq_reg_l in V2; auto. pose proof (bpow_lt radix2 (sgn 32 ei) (sgn 32 ei + s)). assert (bpow radix2 (sgn 32 ei) < bpow radix2 (sgn 32 ei + s))%R by (apply bpow_lt; lia). lra.
Qed.
Print Assumptions C30_frexp_subnormal_refuted.
(** the smallest positive float: fraction 1/2, exponent -154 instead of -148 *)
Example C30_subnormal_case : x_frexp f32x5 i32x5 (ieee nans0) [[1; 0; 0; 0]; [0; 0; 0; 0]]%Z [[0; 0; 0; 0]; [0; 0; 0; 0]]%Z =
  Ok ([[0x3f000000; 0; 0; 0]; [0; 0; 0; 0]], [[2 ^ 32 - 154; 0; 0; 0]; [0; 0; 0; 0]])%Z /\ isnormb F32 1 = false /\ isfin F32 1 = true.
Proof. split; [vm_compute; reflexivity|]. rewrite normal_bits by (split; cbn; lia). split; reflexivity. Qed.

(** *** C31: ldexp / scalbn / scalbln *)
Definition ldexp_ok (f : fmt) (x n y : Z) : Prop :=
  if isfin f x then
    if Req_bool (val f x) 0 then y = x
    else
      let r := rnd f (val f x * bpow radix2 n) in
      if Rlt_bool (Rabs r) (bpow radix2 (emax f)) then isfin f y = true /\ val f y = r /\ fsign (fw f) y = fsign (fw f) x
      else y = infs f (fsign (fw f) x)
  else if isnanb f x then isnanb f y = true else y = x.

(** the counts for which the implementation is exact: comparisons are done on 32 bits for float and for double without
    SSE4.1 (128-bit registers), on 64 bits otherwise; the count plus the biased exponent of x must not overflow *)
Definition ldexp_count (X : xty) (n : Z) : Prop :=
  let b := if (esz (xT X) =? 8) && (is256 X || sse41 (xc X)) then (2 ^ 63)%Z else (2 ^ 31)%Z in
  (- b <= n < b - 2 ^ eb (xf X))%Z.
Lemma ldexp_count_cb X n : xty_ok X -> is_int (xT X) = false -> ldexp_count X n -> (- cbound X <= n < cbound X - 2 ^ eb (xf X))%Z.
Proof.
  intros HX HF. unfold ldexp_count, cbound, l32. destruct HX as (_ & ET & _). destruct (@float_w X ET HF) as [E|E]; rewrite E; unfold xw, ew in E.
  - replace (esz (xT X)) with 4 by lia. cbn [Nat.eqb andb]. auto.
  - replace (esz (xT X)) with 8 by lia. cbn [Nat.eqb andb]. destruct (is256 X), (sse41 (xc X)); cbn [negb orb andb]; auto.
Qed.
Lemma scalbn_elem nn X x n : xty_ok X -> is_int (xT X) = false -> word (xw X) x -> ldexp_count X n -> ldexp_ok (xf X) x n (scalbn1 X nn x (wrap (xw X) n)).
Proof.
  intros HX HF Hx Hn. apply (ldexp_count_cb HX HF) in Hn. rewrite (xw_fw HX HF) in *. rewrite (@scalbn1_W X nn HX HF). unfold ldexp_ok. set (f := xf X) in *.
  destruct (isfin f x) eqn:Fx.
  - destruct (Req_bool_spec (val f x) 0) as [Z0|NZ].
    + apply (val_zero f Hx Fx) in Z0. pose proof (@scalbnW_special nn f (gtl X) (cbound X) (@gtl_int X HX HF) x (wrap (fw f) n) Hx (or_introl Z0)) as Q. cbv zeta in Q.
      assert (fnan (fw f) x = false) as N by (apply (fin_fnan Hx Fx)). rewrite N in Q. exact Q.
    + assert (Nz : fmag (fw f) x <> 0%Z) by (intros Q; apply NZ, (val_zero f Hx Fx); exact Q).
      exact (@scalbnW_fin nn f (gtl X) (cbound X) (@cbound_range X HX HF) (@gtl_int X HX HF) x n Hx Fx Nz Hn).
  - pose proof (@scalbnW_special nn f (gtl X) (cbound X) (@gtl_int X HX HF) x (wrap (fw f) n) Hx (or_intror Fx)) as Q. cbv zeta in Q. rewrite (isnan_spec Hx). destruct (fnan (fw f) x); auto.
    rewrite isnan_spec; auto. unfold f. rewrite <- (@scalbn1_W X nn HX HF), <- (xw_fw HX HF). apply scalbn1_word; auto; rewrite (xw_fw HX HF); auto. apply wrap_word. destruct (xf X); cbn; lia.
Qed.

(** ldexp(x, n), scalbn(x, n) with one int count, scalbln(x, n) with one long count. Partial: counts within 2^8 (float) or
    2^11 (double without SSE4.1) of INT_MAX are excluded, and counts outside int for those types. *)
Theorem C31_ldexp_partial : forall nn X x n, xty_ok X -> is_int (xT X) = false -> shaped X x -> ldexp_count X n ->
  each1 X x (x_ldexp_s X (ieee nn) x n) (fun x y => ldexp_ok (xf X) x n y) /\
  each1 X x (x_scalbn_s X (ieee nn) x n) (fun x y => ldexp_ok (xf X) x n y) /\
  each1 X x (x_scalbln_s X (ieee nn) x n) (fun x y => ldexp_ok (xf X) x n y).
Proof.
  intros nn X x n HX HF Hx Hn.
  assert (E : each1 X x (x_scalbn_s X (ieee nn) x n) (fun x y => ldexp_ok (xf X) x n y)).
  { apply (map1_each HX Hx (x_scalbn_s_ok HX HF nn n Hx)). intros v Hv. apply scalbn_elem; auto. }
  auto.
Qed.
Print Assumptions C31_ldexp_partial.
(** With SSE4.1 or 256-bit registers ldexp and scalbn of double are right for every int count. *)
Theorem C31_ldexp_double_sse41 : forall nn X x n, xty_ok X -> is_int (xT X) = false -> esz (xT X) = 8 -> sse41 (xc X) = true -> shaped X x ->
  (- 2 ^ 31 <= n < 2 ^ 31)%Z ->
  each1 X x (x_ldexp_s X (ieee nn) x n) (fun x y => ldexp_ok (xf X) x n y) /\
  each1 X x (x_scalbn_s X (ieee nn) x n) (fun x y => ldexp_ok (xf X) x n y).
Proof.
  intros nn X x n HX HF E8 S4 Hx Hn. destruct (@C31_ldexp_partial nn X x n HX HF Hx) as (A & B & _); auto.
  unfold ldexp_count. rewrite E8, S4, orb_true_r. cbn [Nat.eqb andb]. assert (2 ^ eb (xf X) <= 2 ^ 11)%Z by (destruct (xf X); cbn; lia). lia.
Qed.
Print Assumptions C31_ldexp_double_sse41.
Definition f64x2 (c : cfg) : xty := {| xc := c; xT := {| esz := 8; ek := KFloat |}; xvs := 16; xN := 2 |}.
Example C31_case : ldexp_count f32x5 (-149) /\ ldexp_count f32x5 200 /\ shaped f32x5 fa /\
  (* 1.5 * 2^-149 rounds to 2 * 2^-149 (ties to even); 1 * 2^-150 rounds to 0 *)
  x_ldexp_s f32x5 (ieee nans0) [[0x3fc00000; 0x3f000000; 0x7f7fffff; 0x80000001]; [0x7fc00000; 0; 0; 0]]%Z (-149) =
    Ok [[2; 0; 0x34ffffff; 0x80000000]; [0x7fc00000; 0; 0; 0]]%Z /\
  x_ldexp_s f32x5 (ieee nans0) [[0x3fc00000; 0xbf800000; 1; 0]; [0xff800000; 0; 0; 0]]%Z 200 =
    Ok [[0x7f800000; 0xff800000; 0x59000000; 0]; [0xff800000; 0; 0; 0]]%Z.
Proof. split; [vm_compute; intuition discriminate|]. split; [vm_compute; intuition discriminate|]. split; [exact fa_ok|]. split; vm_compute; reflexivity. Qed.
(** The excluded counts really go wrong: ldexp(1.0f, INT_MAX) = 0 instead of infinity, and likewise ldexp(1.0, INT_MAX)
    with SSE2 only. *)
Lemma one_inf f x n : val f x = 1%R -> isfin f x = true -> fsign (fw f) x = false -> (emax f <= n)%Z -> forall y, ldexp_ok f x n y -> y = infs f false.
Proof.
  intros V Fx Sx Hn y H. unfold ldexp_ok in H. rewrite Fx, V, Req_bool_false in H by lra. cbv zeta in H. rewrite Rmult_1_l in H. rewrite Sx in H.
  rewrite Rlt_bool_false in H; auto. apply rnd_ge_bpow. { unfold emin, prec, emax. destruct f; cbn; lia. }
  rewrite Rabs_pos_eq by apply bpow_ge_0. apply bpow_le. lia.
Qed.
Theorem C31_ldexp_int_max_refuted :
  (exists r y, x_ldexp_s f32x5 (ieee nans0) [[0x3f800000; 0; 0; 0]; [0; 0; 0; 0]]%Z (2 ^ 31 - 1) = Ok r /\ nth_error (elems f32x5 r) 0 = Some y /\
     y = szero F32 false /\ ~ ldexp_ok F32 0x3f800000 (2 ^ 31 - 1) y) /\
  (exists r y, x_ldexp_s (f64x2 sse2) (ieee nans0) [[0x3ff0000000000000; 0]]%Z (2 ^ 31 - 1) = Ok r /\ nth_error (elems (f64x2 sse2) r) 0 = Some y /\
     y = szero F64 false /\ ~ ldexp_ok F64 0x3ff0000000000000 (2 ^ 31 - 1) y).
Proof.
  split.
  - eexists; eexists. split; [vm_compute; reflexivity|]. split; [vm_compute; reflexivity|]. split; [reflexivity|]. intros H.
    apply one_inf in H; [discriminate| |reflexivity|reflexivity|cbn; lia]. unfold val. vm_compute Binary.B2R. apply (f_equal IZR (eq_refl 1%Z)) || lra.
  - eexists; eexists. split; [vm_compute; reflexivity|]. split; [vm_compute; reflexivity|]. split; [reflexivity|]. intros H.
    apply one_inf in H; [discriminate| |reflexivity|reflexivity|cbn; lia]. unfold val. vm_compute Binary.B2R. apply (f_equal IZR (eq_refl 1%Z)) || lra.
Qed.
Print Assumptions C31_ldexp_int_max_refuted.

(** *** C46 (and C31): vectors of counts *)
(** element i of the result is the one ldexp/scalbln of the whole vector by the single count n_i gives *)
Definition routed (X J : xty) (w : Z) (x n : list vec) (r : res (list vec)) (s : Z -> res (list vec)) : Prop :=
  exists v, r = Ok v /\ shaped X v /\
    forall i ni, nth_error (elems J n) i = Some ni ->
      exists u yi, s (sgn w ni) = Ok u /\ nth_error (elems X v) i = Some yi /\ nth_error (elems X u) i = Some yi.

Section Routed.
Context {X J : xty} (HX : xty_ok X) (HJ : xty_ok J) (HF : is_int (xT X) = false) (nn : nans).
Lemma routed_intro w x n es r : shaped X x -> shaped X es -> is_map2 X (scalbn1 X nn) x es r -> length (elems J n) = xN X ->
  elems X es = map (fun c => wrap (xw X) (sgn w c)) (elems J n) -> routed X J w x n r (fun c => x_scalbn_s X (ieee nn) x c).
Proof.
  intros Hx He M LN E. destruct (is_map2_elems HX Hx He M) as (v & -> & S & EV). exists v. split; auto. split; auto.
  intros i ni Hi. destruct (is_map1_elems HX Hx (x_scalbn_s_ok HX HF nn (sgn w ni) Hx)) as (u & Eu & Su & EU).
  assert (Li : i < xN X). { rewrite <- LN. apply nth_error_Some. rewrite Hi. discriminate. }
  destruct (nth_error (elems X x) i) as [xi|] eqn:Ex. 2:{ apply nth_error_None in Ex. rewrite (elems_length HX Hx) in Ex. lia. }
  exists u, (scalbn1 X nn xi (wrap (xw X) (sgn w ni))). split; auto. split.
  - rewrite EV. apply nth_error_vmap2; auto. rewrite E. exact (map_nth_error (fun c => wrap (xw X) (sgn w c)) _ _ Hi).
  - rewrite EU. exact (map_nth_error (fun v => scalbn1 X nn v (wrap (xw X) (sgn w ni))) _ _ Ex).
Qed.
Lemma map_id_words w l : (0 < w)%Z -> Forall (word w) l -> map (fun c => wrap w (sgn w c)) l = l.
Proof. intros Hw H. induction H as [|c l Hc Hl IH]; cbn [map]; [auto|]. rewrite IH, wrap_sgn; auto. Qed.
Lemma elems_Forall (K : xty) y : shaped K y -> Forall (word (xw K)) (elems K y).
Proof. intros H. apply Forall_forall. intros v Hv. apply In_nth_error in Hv. destruct Hv as [i Hi]. exact (el_word _ H Hi). Qed.
End Routed.

(** ldexp(x, n), scalbn(x, n): every N, any instruction set; float of both register widths, double of 128 bits *)
Theorem C46_ldexp_partial : forall nn X J x n, xty_ok X -> xty_ok J -> is_int (xT X) = false -> int_vec_of X J -> shaped X x -> shaped J n ->
  esz (xT X) = 4 \/ is256 X = false ->
  routed X J 32 x n (x_scalbn_v X J (ieee nn) x n) (fun c => x_ldexp_s X (ieee nn) x c).
Proof.
  intros nn X J x n HX HJ HF (EC & EN & E4 & EI & EV) Hx Hn H.
  assert (E84 : esz (xT X) = 8 \/ esz (xT X) = 4). { destruct HX as (_ & ET & _). destruct (@float_w X ET HF) as [E|E]; unfold xw, ew in E; lia. }
  pose proof (elems_Forall Hn) as WJ. assert (WJ' : xw J = 32%Z) by (unfold xw, ew; rewrite E4; reflexivity). rewrite WJ' in WJ.
  destruct E84 as [X8|X4].
  - destruct H as [H|H]; [lia|]. assert (HS : same_abi X J). { unfold same_abi. rewrite EC, EN, E4, X8, EI, HF. repeat split; auto. destruct EV as [V|(_ & V1 & V2 & V3)]; auto. }
    destruct (scalbn_v_f64_128 HX HJ HF nn HS H Hx Hn) as (es & M & Ses & Ees). apply (@routed_intro X J HX HF nn 32 x n es); auto.
    rewrite (elems_length HJ Hn). exact EN. rewrite Ees. apply map_ext. intros c. unfold sext32, xw, ew. rewrite X8. reflexivity.
  - assert (EV' : xvs J = xvs X) by (destruct EV as [V|(V0 & _)]; [auto|lia]).
    destruct (scalbn_v_f32 HX HF nn X4 E4 EV' EN Hx Hn) as (M & Ees).
    assert (Hn' : shaped X n). { unfold shaped, wfv, dsz, ext, xw, ew in *. rewrite X4. rewrite E4, EV', EN in Hn. exact Hn. }
    apply (@routed_intro X J HX HF nn 32 x n n); auto. rewrite (elems_length HJ Hn). exact EN. rewrite Ees.
    replace (xw X) with 32%Z by (unfold xw, ew; rewrite X4; reflexivity). symmetry. apply map_id_words; auto; lia.
Qed.
Print Assumptions C46_ldexp_partial.
(** scalbln(x, n) of double *)
Theorem C46_scalbln_double : forall nn X J x n, xty_ok X -> xty_ok J -> is_int (xT X) = false -> esz (xT X) = 8 -> long_vec_of X J -> shaped X x -> shaped J n ->
  routed X J 64 x n (x_scalbln_v X J (ieee nn) x n) (fun c => x_scalbln_s X (ieee nn) x c).
Proof.
  intros nn X J x n HX HJ HF X8 (EC & EN & E8 & EI & EV) Hx Hn.
  assert (EV' : xvs J = xvs X) by (destruct EV as [V|(V0 & _)]; [auto|lia]).
  destruct (scalbln_v_f64 HX HF nn X8 E8 EV' EN Hx Hn) as (M & Ees).
  assert (Hn' : shaped X n). { unfold shaped, wfv, dsz, ext, xw, ew in *. rewrite X8. rewrite E8, EV', EN in Hn. exact Hn. }
  apply (@routed_intro X J HX HF nn 64 x n n); auto. rewrite (elems_length HJ Hn). exact EN. rewrite Ees.
  replace (xw X) with 64%Z by (unfold xw, ew; rewrite X8; reflexivity). symmetry. apply map_id_words; [lia|].
  replace 64%Z with (xw J) by (unfold xw, ew; rewrite E8; reflexivity). apply elems_Forall; auto.
Qed.
Print Assumptions C46_scalbln_double.
(** scalbln(x, n) of float with 128-bit registers: right when the counts fill an even number of registers (twice as many as x),
    undefined (the second register of the last pair is read past the end) otherwise *)
Theorem C46_scalbln_float_partial : forall nn X J x n, xty_ok X -> xty_ok J -> is_int (xT X) = false -> esz (xT X) = 4 -> long_vec_of X J ->
  is256 J = false -> shaped X x -> shaped J n ->
  ((xN X - 1) mod 4 >= 2 -> routed X J 64 x n (x_scalbln_v X J (ieee nn) x n) (fun c => x_scalbln_s X (ieee nn) x c)) /\
  ((xN X - 1) mod 4 < 2 -> x_scalbln_v X J (ieee nn) x n = UB).
Proof.
  intros nn X J x n HX HJ HF X4 (EC & EN & E8 & EI & EV) H2 Hx Hn.
  assert (HS : same_abi J X). { unfold same_abi. rewrite EC, EN, E8, X4, EI, HF. repeat split; auto. destruct EV as [V|(_ & V1 & V2 & V3)]; auto. right. rewrite <- EN. auto. }
  assert (V16 : xvs J = 16). { destruct HJ as (_ & _ & _ & [V|[V _]]); auto. unfold is256 in H2. rewrite V in H2. discriminate. }
  assert (VX : xvs X = 16) by (destruct EV as [V|(_ & V & _)]; congruence).
  assert (N0 : 0 < xN X) by (destruct HX as (_ & _ & H & _); lia).
  assert (DX : dsz X = (xN X - 1) / 4 + 1).
  { pose proof (dsz_spec HX) as D. assert (ext X = 4) as EE by (unfold ext; rewrite VX, X4; reflexivity). rewrite EE in D. lia. }
  assert (DJ : dsz J = (xN X - 1) / 2 + 1).
  { pose proof (dsz_spec HJ) as D. assert (ext J = 2) as EE by (unfold ext; rewrite V16, E8; reflexivity). rewrite EE in D. lia. }
  destruct (scalbln_128 HX HJ HF nn HS H2 Hx Hn) as [A B]. split; intros C.
  - destruct A as (es & M & Ses & Ees). { rewrite DX, DJ. lia. }
    apply (@routed_intro X J HX HF nn 64 x n es); auto. rewrite (elems_length HJ Hn). exact EN. rewrite Ees.
    apply map_ext_in. intros c Hc. assert (Wc : word 64 c). { replace 64%Z with (xw J) by (unfold xw, ew; rewrite E8; reflexivity). exact (proj1 (Forall_forall _ _) (elems_Forall Hn) c Hc). }
    replace (xw X) with 32%Z by (unfold xw, ew; rewrite X4; reflexivity). unfold lo32. change (c mod 2 ^ 32)%Z with (wrap 32 c). rewrite <- (@wrap_sgn 64 c) at 1; [|lia|exact Wc]. apply wrap_wrap_le. lia.
  - apply B. rewrite DX, DJ. lia.
Qed.
Print Assumptions C46_scalbln_float_partial.

(** frexp: one function of the bit pattern gives fraction and exponent of every element, for all N, register widths and
    instruction sets *)
Theorem C46_frexp : forall nn f, exists g : Z -> Z * Z, forall X J x d, xty_ok X -> xty_ok J -> is_int (xT X) = false -> xf X = f -> int_vec_of X J ->
  shaped X x -> shaped J d -> frexp_each X J x (x_frexp X J (ieee nn) x d) (fun x y e => g x = (y, e)).
Proof.
  intros nn f. exists (fun x => (fst (frexpW nn (f := f) x), sgn 32 (lo32 (snd (frexpW nn (f := f) x))))).
  intros X J x d HX HJ HF Ef HS Hx Hd. destruct (x_frexp_ok HX HF nn HJ HS Hx Hd) as (e & -> & Sy & Se & Ee).
  eexists; exists e. split; [reflexivity|]. split; auto. split; auto. intros i xi Hi. rewrite elems_map, Ee.
  exists (fst (frexp1 X nn xi)), (lo32 (snd (frexp1 X nn xi))). split; [exact (map_nth_error _ _ _ Hi)|]. split; [exact (map_nth_error _ _ _ Hi)|].
  rewrite (@frexp1_W X nn xi HX HF), Ef. reflexivity.
Qed.
Print Assumptions C46_frexp.

(** Cases: six doubles in three 128-bit registers with their six ints in two registers; seven floats with seven longs *)
Definition f64x6 : xty := {| xc := sse4; xT := {| esz := 8; ek := KFloat |}; xvs := 16; xN := 6 |}.
Definition i32x6c : xty := {| xc := sse4; xT := {| esz := 4; ek := KInt true |}; xvs := 16; xN := 6 |}.
Definition f32x7 : xty := {| xc := sse4; xT := {| esz := 4; ek := KFloat |}; xvs := 16; xN := 7 |}.
Definition i64x7 : xty := {| xc := sse4; xT := {| esz := 8; ek := KInt true |}; xvs := 16; xN := 7 |}.
Definition one64 : Z := 0x3ff0000000000000.
Example C46_case : xty_ok f64x6 /\ xty_ok i32x6c /\ int_vec_of f64x6 i32x6c /\ shaped i32x6c [[0; 1; 2; 3]; [2 ^ 32 - 1; 5; 0; 0]]%Z /\
  x_scalbn_v f64x6 i32x6c (ieee nans0) [[one64; one64]; [one64; one64]; [one64; one64]] [[0; 1; 2; 3]; [2 ^ 32 - 1; 5; 0; 0]]%Z =
    Ok [[0x3ff0000000000000; 0x4000000000000000]; [0x4010000000000000; 0x4020000000000000]; [0x3fe0000000000000; 0x4040000000000000]]%Z /\
  xty_ok f32x7 /\ xty_ok i64x7 /\ long_vec_of f32x7 i64x7 /\ (xN f32x7 - 1) mod 4 >= 2 /\
  x_scalbln_v f32x7 i64x7 (ieee nans0) [repeat 0x3f800000 4; repeat 0x3f800000 4]%Z [[0; 1]; [2; 3]; [2 ^ 64 - 1; 5]; [6; 0]]%Z =
    Ok [[0x3f800000; 0x40000000; 0x40800000; 0x41000000]; [0x3f000000; 0x42000000; 0x42800000; 0x3f800000]]%Z.
Proof.
  split; [xok|]. split; [xok|]. split; [repeat split; left; reflexivity|]. split; [shp|]. split; [vm_compute; reflexivity|].
  split; [xok|]. split; [xok|]. split; [repeat split; left; reflexivity|]. split; [cbn; lia|]. vm_compute. reflexivity.
Qed.

(** 256-bit double: with AVX but not AVX2 the upper halves are used for both halves; with AVX2 the in-lane unpack takes counts
    0, 1, 4, 5; with aligned_vector<4, 0> (int counts in one 128-bit register) the second register is read past the end.
    256-bit float with long counts: registers 0 for both halves. *)
Definition f64x4 (c : cfg) : xty := {| xc := c; xT := {| esz := 8; ek := KFloat |}; xvs := 32; xN := 4 |}.
Definition i32x4 (c : cfg) (vs : nat) : xty := {| xc := c; xT := {| esz := 4; ek := KInt true |}; xvs := vs; xN := 4 |}.
Definition f32x8 (c : cfg) : xty := {| xc := c; xT := {| esz := 4; ek := KFloat |}; xvs := 32; xN := 8 |}.
Definition i64x8 (c : cfg) : xty := {| xc := c; xT := {| esz := 8; ek := KInt true |}; xvs := 32; xN := 8 |}.
Definition counts4 : list vec := [[0; 1; 2; 3; 0; 0; 0; 0]]%Z.
Definition ones4 : list vec := [repeat one64 4].
Theorem C46_ldexp_256_refuted : forall c, c = avx1 \/ c = haswell ->
  xty_ok (f64x4 c) /\ xty_ok (i32x4 c 32) /\ int_vec_of (f64x4 c) (i32x4 c 32) /\ shaped (f64x4 c) ones4 /\ shaped (i32x4 c 32) counts4 /\
  ~ routed (f64x4 c) (i32x4 c 32) 32 ones4 counts4 (x_scalbn_v (f64x4 c) (i32x4 c 32) (ieee nans0) ones4 counts4)
      (fun n => x_ldexp_s (f64x4 c) (ieee nans0) ones4 n).
Proof.
  intros c [-> | ->].
  - split; [xok|]. split; [xok|]. split; [repeat split; left; reflexivity|]. split; [unfold ones4, one64; shp|]. split; [unfold counts4; shp|].
    intros (v & E & _ & H). vm_compute in E. injection E as <-. destruct (H 0 0%Z eq_refl) as (u & y & E1 & E2 & E3). vm_compute in E1. injection E1 as <-. vm_compute in E2, E3. congruence.
  - split; [xok|]. split; [xok|]. split; [repeat split; left; reflexivity|]. split; [unfold ones4, one64; shp|]. split; [unfold counts4; shp|].
    intros (v & E & _ & H). vm_compute in E. injection E as <-. destruct (H 2 2%Z eq_refl) as (u & y & E1 & E2 & E3). vm_compute in E1. injection E1 as <-. vm_compute in E2, E3. congruence.
Qed.
Print Assumptions C46_ldexp_256_refuted.
Theorem C46_ldexp_256_oob_refuted : forall c, c = avx1 \/ c = haswell ->
  int_vec_of (f64x4 c) (i32x4 c 16) /\ shaped (i32x4 c 16) [[0; 1; 2; 3]]%Z /\
  x_scalbn_v (f64x4 c) (i32x4 c 16) (ieee nans0) ones4 [[0; 1; 2; 3]]%Z = UB.
Proof.
  intros c [-> | ->]; (split; [repeat split; right; repeat split; auto|]; split; [shp|]; vm_compute; reflexivity).
Qed.
Print Assumptions C46_ldexp_256_oob_refuted.
Theorem C46_scalbln_256_refuted : forall c, c = avx1 \/ c = haswell ->
  let x := [repeat 0x3f800000%Z 8] in let n := [[0; 1; 2; 3]; [4; 5; 6; 7]]%Z in
  xty_ok (f32x8 c) /\ xty_ok (i64x8 c) /\ long_vec_of (f32x8 c) (i64x8 c) /\ shaped (f32x8 c) x /\ shaped (i64x8 c) n /\
  ~ routed (f32x8 c) (i64x8 c) 64 x n (x_scalbln_v (f32x8 c) (i64x8 c) (ieee nans0) x n) (fun n => x_scalbln_s (f32x8 c) (ieee nans0) x n).
Proof.
  intros c [-> | ->]; cbv zeta; (split; [xok|]; split; [xok|]; split; [repeat split; left; reflexivity|]; split; [shp|]; split; [shp|];
    intros (v & E & _ & H); vm_compute in E; injection E as <-; destruct (H 4 4%Z eq_refl) as (u & y & E1 & E2 & E3); vm_compute in E1; injection E1 as <-; vm_compute in E2, E3; congruence).
Qed.
Print Assumptions C46_scalbln_256_refuted.

(** C31 for vectors of counts *)
Theorem C31_ldexp_vector_partial : forall nn X J x n, xty_ok X -> xty_ok J -> is_int (xT X) = false -> int_vec_of X J -> shaped X x -> shaped J n ->
  esz (xT X) = 4 \/ is256 X = false ->
  exists v, x_scalbn_v X J (ieee nn) x n = Ok v /\ shaped X v /\
    forall i xi ni, nth_error (elems X x) i = Some xi -> nth_error (elems J n) i = Some ni -> ldexp_count X (sgn 32 ni) ->
      exists yi, nth_error (elems X v) i = Some yi /\ ldexp_ok (xf X) xi (sgn 32 ni) yi.
Proof.
  intros nn X J x n HX HJ HF HS Hx Hn H. destruct (C46_ldexp_partial nn HX HJ HF HS Hx Hn H) as (v & E & Sv & R). exists v. split; auto. split; auto.
  intros i xi ni Hi Hni Hc. destruct (R i ni Hni) as (u & yi & E1 & E2 & E3). exists yi. split; auto.
  destruct (@C31_ldexp_partial nn X x (sgn 32 ni) HX HF Hx Hc) as ((u' & E4 & _ & Q) & _). rewrite E1 in E4. injection E4 as <-.
  destruct (Q i xi Hi) as (y' & E5 & E6). congruence.
Qed.
Print Assumptions C31_ldexp_vector_partial.

(** *** C33: modf *)
(** [modf_ok f x y i] (FModf.v): i is integral, |y| < 1, both have the sign of x, and x = i + y exactly *)
Definition modf_each (X : xty) (x : list vec) (r : res (list vec * list vec)) (P : Z -> Z -> Z -> Prop) : Prop :=
  exists y i, r = Ok (y, i) /\ shaped X y /\ shaped X i /\
    forall k xk, nth_error (elems X x) k = Some xk -> exists yk ik, nth_error (elems X y) k = Some yk /\ nth_error (elems X i) k = Some ik /\ P xk yk ik.
Lemma nth_ext' {A} (a b : list A) : (forall k, nth_error a k = nth_error b k) -> a = b.
Proof.
  revert b. induction a as [|x a IH]; intros [|y b] H; auto; try (specialize (H 0); discriminate).
  f_equal. { specialize (H 0). now injection H. } apply IH. intros k. exact (H (S k)).
Qed.
Section ModfVec.
Context {X : xty} (HX : xty_ok X) (HF : is_int (xT X) = false) (nn : nans).
Lemma modf1_word v : word (xw X) v -> word (xw X) (fst (modf1 X nn v)) /\ word (xw X) (snd (modf1 X nn v)).
Proof.
  intros Hv. rewrite (@modf1_W X nn v HX HF). pose proof (xw_fw HX HF) as EW. rewrite EW in *. set (f := xf X) in *. unfold modfW. cbv zeta.
  assert (Sg : word (fw f) (sbit f (fsign (fw f) v))) by (rewrite <- szero_sbit; apply word_zero).
  assert (Ld : forall m, word (fw f) (Z.ldiff v m)).
  { intros m. apply word_ldiff; auto. destruct f; cbn; lia. }
  cbn [fst snd].
  split; repeat match goal with |- word _ (if ?t then _ else _) => destruct t end; auto. apply fsub_word.
Qed.
Lemma k_modf_vec v y i : wfv X v -> k_modf X (ieee nn) v = Ok (y, i) -> y = map (fun u => fst (modf1 X nn u)) v /\ i = map (fun u => snd (modf1 X nn u)) v.
Proof.
  intros Hv E. pose proof (ext_pos HX) as He.
  assert (Q : forall k x, nth_error v k = Some x -> L X k y (fst (modf1 X nn x)) /\ L X k i (snd (modf1 X nn x))).
  { intros k x Hk. apply (@k_modf_lane X nn HX HF k v y i x E). split; auto. }
  destruct Hv as [Lv Wv]. destruct v as [|v0 vr] eqn:Ev. { cbn in Lv. lia. } rewrite <- Ev in *.
  destruct (Q 0 v0) as [[[Ly _] _] [[Li _] _]]. { now rewrite Ev. } 
  split; apply nth_ext'; intros k; rewrite nth_error_map; destruct (nth_error v k) as [x|] eqn:Ek; cbn [option_map].
  1, 3: apply (Q k x Ek). all: apply nth_error_None; apply nth_error_None in Ek; lia.
Qed.
Lemma x_modf_vec x p : shaped X x -> x_modf X (ieee nn) x = Ok p ->
  p = (map (map (fun u => fst (modf1 X nn u))) x, map (map (fun u => snd (modf1 X nn u))) x).
Proof.
  intros [_ Wx] E. unfold x_modf in E. destruct (mapM (k_modf X (ieee nn)) x) as [ps|] eqn:Em; cbn [bind] in E; [|discriminate]. injection E as <-.
  revert ps Em. induction Wx as [|v x Hv Wx IH]; intros ps Em; cbn [mapM] in Em.
  - injection Em as <-. reflexivity.
  - destruct (k_modf X (ieee nn) v) as [[y i]|] eqn:Ek; cbn [bind] in Em; [|discriminate]. destruct (mapM _ x) as [qs|]; cbn [bind] in Em; [|discriminate].
    injection Em as <-. destruct (k_modf_vec Hv Ek) as [-> ->]. specialize (IH qs eq_refl). injection IH as I1 I2. cbn [map fst snd]. now rewrite I1, I2.
Qed.
Lemma x_modf_each x p (P : Z -> Z -> Z -> Prop) : shaped X x -> x_modf X (ieee nn) x = Ok p ->
  (forall v, word (xw X) v -> P v (fst (modf1 X nn v)) (snd (modf1 X nn v))) -> modf_each X x (x_modf X (ieee nn) x) P.
Proof.
  intros Hx E H. rewrite E, (@x_modf_vec x p Hx E). eexists; eexists. split; [reflexivity|].
  split; [apply shaped_map; auto; apply modf1_word|]. split; [apply shaped_map; auto; apply modf1_word|].
  intros k xk Hk. rewrite !elems_map. exists (fst (modf1 X nn xk)), (snd (modf1 X nn xk)). split; [exact (map_nth_error (fun u => fst (modf1 X nn u)) _ _ Hk)|].
  split; [exact (map_nth_error (fun u => snd (modf1 X nn u)) _ _ Hk)|]. apply H. exact (el_word _ Hx Hk).
Qed.
Lemma mapM_ok {A B} (g : A -> res B) l : (forall a, In a l -> exists b, g a = Ok b) -> exists r, mapM g l = Ok r.
Proof.
  induction l as [|a l IH]; intros H; cbn [mapM]. { eauto. } destruct (H a (or_introl eq_refl)) as [b ->]. destruct IH as [r ->]. { intros c Hc. apply H. now right. } cbn. eauto.
Qed.
End ModfVec.
Lemma one_exp f x : word (fw f) x -> isfin f x = true -> (1 <= Rabs (val f x))%R -> (2 ^ (eb f - 1) - 1 <= mexp f (fmag (fw f) x))%Z.
Proof.
  intros Hx Fx H. pose proof (@half_e f) as HE. pose proof (@mw_pos f). pose proof (@mm_pos f).
  assert (Q : mval f (2 ^ mw f * (2 ^ (eb f - 1) - 1)) = 1%R). { rewrite mval_pow by lia. rewrite Z.sub_diag. reflexivity. }
  rewrite <- Q, (abs_val f Hx Fx) in H. apply mval_le in H; [| nia | apply fin_word; auto]. unfold mexp. apply Z.div_le_lower_bound; lia.
Qed.
Lemma one_exp' f x : word (fw f) x -> isfin f x = true -> (Rabs (val f x) < 1)%R -> (mexp f (fmag (fw f) x) < 2 ^ (eb f - 1) - 1)%Z.
Proof.
  intros Hx Fx H. pose proof (@half_e f) as HE. pose proof (@mw_pos f). pose proof (@mm_pos f).
  assert (Q : mval f (2 ^ mw f * (2 ^ (eb f - 1) - 1)) = 1%R). { rewrite mval_pow by lia. rewrite Z.sub_diag. reflexivity. }
  rewrite <- Q, (abs_val f Hx Fx) in H. apply Z.nle_gt. intros C. unfold mexp in C. pose proof (fin_word f Hx).
  assert (2 ^ mw f * (2 ^ (eb f - 1) - 1) <= fmag (fw f) x)%Z. { pose proof (Z.mul_div_le (fmag (fw f) x) (2 ^ mw f)). nia. }
  apply (mval_le f) in H3; nia || lra.
Qed.

(** modf of double, and of float with AVX2, is always defined. *)
Theorem C33_modf_defined : forall nn X x, xty_ok X -> is_int (xT X) = false -> esz (xT X) = 8 \/ avx2 (xc X) = true -> shaped X x ->
  exists p, x_modf X (ieee nn) x = Ok p.
Proof.
  intros nn X x HX HF H Hx. unfold x_modf. destruct (@mapM_ok _ _ (k_modf X (ieee nn)) x) as [ps ->].
  { intros v _. apply k_modf_defined; auto. destruct H as [-> | ->]; [reflexivity|apply orb_true_r]. } cbn [bind]. eauto.
Qed.
Print Assumptions C33_modf_defined.
(** Whenever the call is defined: partial, elements with 0 < |x| < 1 are excluded; infinities give (0, x), NaNs (x, x). *)
Theorem C33_modf_partial : forall nn X x p, xty_ok X -> is_int (xT X) = false -> shaped X x -> x_modf X (ieee nn) x = Ok p ->
  modf_each X x (x_modf X (ieee nn) x) (fun x y i =>
    (isfin (xf X) x = true -> (1 <= Rabs (val (xf X) x))%R \/ val (xf X) x = 0%R -> modf_ok (f := xf X) x y i) /\
    (isfin (xf X) x = false -> i = x /\ if isnanb (xf X) x then y = x else y = szero (xf X) (fsign (fw (xf X)) x))).
Proof.
  intros nn X x p HX HF Hx E. apply (@x_modf_each X HX HF nn x p _ Hx E). intros v Hv. rewrite (@modf1_W X nn v HX HF). rewrite (xw_fw HX HF) in Hv. set (f := xf X) in *. split.
  - intros Fv [Big|Z0].
    + apply modfW_big; auto. apply one_exp; auto.
    + rewrite modfW_small; auto. 2:{ apply one_exp'; auto. rewrite Z0, Rabs_R0. lra. } cbn [fst snd]. unfold modf_ok. rewrite Z0, Rabs_R0. repeat split; auto; try lra. exists 0%Z. reflexivity.
  - intros Fv. rewrite modfW_special by auto. cbn [fst snd]. split; auto. rewrite (isnan_spec Hv). destruct (fnan (fw f) v); reflexivity.
Qed.
Print Assumptions C33_modf_partial.
(** For 0 < |x| < 1 the fractional part is right but the integral part is x itself instead of a zero. *)
Theorem C33_modf_small_refuted : forall nn X x p, xty_ok X -> is_int (xT X) = false -> shaped X x -> x_modf X (ieee nn) x = Ok p ->
  modf_each X x (x_modf X (ieee nn) x) (fun x y i =>
    isfin (xf X) x = true -> (0 < Rabs (val (xf X) x) < 1)%R -> y = x /\ i = x /\ ~ modf_ok (f := xf X) x y i).
Proof.
  intros nn X x p HX HF Hx E. apply (@x_modf_each X HX HF nn x p _ Hx E). intros v Hv. rewrite (@modf1_W X nn v HX HF). rewrite (xw_fw HX HF) in Hv. set (f := xf X) in *.
  intros Fv [A B]. rewrite modfW_small; auto. 2:{ apply one_exp'; auto. } cbn [fst snd]. split; auto. split; auto.
  intros (_ & _ & _ & _ & _ & _ & Q). assert (val f v = 0%R) as Z0 by lra. rewrite Z0, Rabs_R0 in A. lra.
Qed.
Print Assumptions C33_modf_small_refuted.
Example C33_case : x_modf f64x3 (ieee nans0) [[0xc00c000000000000; 0x3fe0000000000000; 0x7ff0000000000000; 0]]%Z =      (* -3.5, 0.5, inf *)
  Ok ([[0xbfe0000000000000; 0x3fe0000000000000; 0; 0]], [[0xc008000000000000; 0x3fe0000000000000; 0x7ff0000000000000; 0]])%Z.
Proof. vm_compute. reflexivity. Qed.
(** float without AVX2: undefined as soon as one lane - also an unused one, which is zero after construction - has |x| < 1
    or |x| >= 2^32 (shift of a uint32_t by 32 or more) *)
Theorem C33_modf_float_undefined_refuted : forall X, xty_ok X -> is_int (xT X) = false -> esz (xT X) = 4 -> avx2 (xc X) = false -> forall nn x,
  shaped X x -> (exists v, In v (concat x) /\ isfin F32 v = true /\ (Rabs (val F32 v) < 1)%R) -> x_modf X (ieee nn) x = UB.
Proof.
  intros X HX HF X4 A2 nn x Hx (u & Hu & Fu & Vu). unfold x_modf.
  assert (Q : mapM (k_modf X (ieee nn)) x = UB); [|rewrite Q; reflexivity].
  destruct Hx as [_ Wx]. apply in_concat in Hu. destruct Hu as (v & Hv & Hu).
  assert (W32 : xw X = 32%Z) by (unfold xw, ew; rewrite X4; reflexivity).
  assert (Ef : xf X = F32). { pose proof (xw_fw HX HF) as Q. rewrite W32 in Q. destruct (xf X); [reflexivity|discriminate]. }
  assert (Kv : k_modf X (ieee nn) v = UB).
  { pose proof (proj1 (Forall_forall _ _) Wx v Hv) as Wv. apply In_nth_error in Hu. destruct Hu as [k Hk].
    assert (Lk : L X k v u) by (split; auto). pose proof (L_word Lk) as Wu. pose proof (L_lt Lk) as Hlt. pose proof (mant_pos X HF) as Hm.
    assert (Le := li_sub HX (ieee nn) (l_and HX (li_shiftr Hm Lk) (li_ifill HX HF (exp_mask (xw X)) Hlt)) (li_ifill HX HF (exp_off (xw X)) Hlt)).
    assert (Hb : (0 <= expbits (xw X) + 1)%Z) by (rewrite W32; cbn; lia).
    assert (La := li_shiftr Hb (li_ifill HX HF (-1) Hlt)).
    unfold k_modf. cbv zeta. match goal with |- context [v_shiftr_any X ?a ?b] => assert (Es : v_shiftr_any X a b = UB) end.
    2:{ rewrite Es. reflexivity. }
    unfold v_shiftr_any. rewrite X4, A2. cbn [Nat.eqb orb].
    match goal with |- mapM ?g ?l = UB => destruct (mapM g l) as [m|] eqn:Em; [|reflexivity]; exfalso end.
    apply (mapM_shr HF W32) in Em. 2:{ rewrite (proj1 (L_wf La)), (proj1 (L_wf Le)). reflexivity. }
    destruct Em as [_ Hf]. pose proof (proj1 (Forall_forall _ _) Hf _ (nth_error_In _ _ (proj2 Le))) as Q. cbv beta in Q.
    rewrite W32 in Wu, Q. pose proof (@one_exp' F32 u Wu Fu Vu) as B. pose proof (@exp_field F32 u Wu) as EF. pose proof (mexp_range (f := F32) u) as Re.
    change (Z.land (lshr_bits (mant 32) u) (wrap 32 (exp_mask 32))) with (Z.land (lshr_bits (mw F32) u) (2 ^ eb F32 - 1)) in Q. rewrite EF in Q.
    change (wrap 32 (exp_off 32)) with 127%Z in Q. change (2 ^ (eb F32 - 1) - 1)%Z with 127%Z in B. set (q := mexp F32 _) in *. clearbody q. clear - B Q Re.
    rewrite <- (Z.mod_unique (q - 127) (2 ^ 32) (-1) (q - 127 + 2 ^ 32)) in Q by lia. lia. }
  clear Hu. induction x as [|v0 x IH]; [destruct Hv|]. cbn [mapM]. inversion Wx as [|? ? H1 H2]; subst. destruct Hv as [-> | Hv].
  - rewrite Kv. reflexivity.
  - destruct (k_modf X (ieee nn) v0); cbn [bind]; auto. rewrite IH; auto.
Qed.
Print Assumptions C33_modf_float_undefined_refuted.
Example C33_undefined_case : x_modf f32x5 (ieee nans0) [[0x40200000; 0x40200000; 0x40200000; 0x40200000]; [0x40200000; 0; 0; 0]]%Z = UB.   (* 2.5 five times *)
Proof. vm_compute. reflexivity. Qed.
