(** The trigonometric kernels act on every lane separately: their lane functions. *)
From Coq Require Import ZifyBool ZifyNat.
From Flocq Require Import IEEE754.BinarySingleNaN.
From Verif Require Import Base Cxx Spec X86Vec X86 X86Lemmas X86Proofs X86Masks X86Ops X86Shift Fp FpLemmas FpOps FKern FMath FMathProofs FLane FManip FManipLanes FArith
  Cvt CvtProofs FRoute FRouteProofs LogbProofs Round RoundLanes Hypot HypotProofs PropFloat PropManip PropArith LogProofs TrigTab Trig.
Set Implicit Arguments.

Section Trig.
Context {X : xty} (HX : xty_ok X) (HF : is_int (xT X) = false) (fm he : bool) (nn : nans).
Local Notation w := (xw X).
Local Notation f := (xf X).
Local Notation L := (L X).
Local Notation LM := (LM X).
Local Notation fma := (fmadd1 (X := X) nn fm).
Open Scope Z_scope.

Definition tw (t : Z -> list Z) : Prop := Forall (word w) (t w) /\ (1 <= length (t w))%nat.
Lemma tabs_ok : tw dp_sincos /\ tw sincof /\ tw coscof /\ tw tancof /\ tw asin_r /\ tw asin_s /\ tw asin_p /\ tw asin_q /\ tw atan_p /\ tw atan_q.
Proof.
  unfold tw, dp_sincos, sincof, coscof, tancof, asin_r, asin_s, asin_p, asin_q, atan_p, atan_q.
  destruct (w_cases HX HF) as [-> | ->]; cbn [Z.eqb Pos.eqb]; repeat match goal with |- _ /\ _ => split end; try (apply (words_dec HF); vm_compute; reflexivity); try (apply Nat.leb_le; reflexivity).
Qed.
Lemma consts_ok : (word w (c_pio32 w) /\ word w (c_pio4 w) /\ word w (c_pio2 w) /\ word w (c_tan3pio8 w) /\ word w (c_five_eights w)) /\
  (word w (c_half w) /\ word w (c_mhalf w) /\ word w (c_p66 w) /\ word w (c_two w) /\ word w (c_asin_pmin w)) /\
  (word w (c_asin_off w) /\ word w (c_asin_off2 w) /\ word w (c_oflow w) /\ word w (fone w) /\ word w (2 ^ (w - 1) + fone w)) /\ word w (finf w).
Proof. unfold word. destruct (w_cases HX HF) as [-> | ->]; cbn; lia. Qed.

Definition polevl1 (x : Z) (c : list Z) : Z := fold_left (fun y a => fma y x a) (tl c) (hd 0 c).
Lemma l_polevl k v x c : (k < ext X)%nat -> Forall (word w) c -> (1 <= length c)%nat -> L k v x -> L k (polevl X fm nn v c) (polevl1 x c).
Proof.
  intros Hk Hc Hl Hx. unfold polevl, polevl1. destruct c as [|c0 c]; [cbn in Hl; lia|]. inversion Hc as [|? ? H0 Ht]; subst. clear Hc Hl. cbn [tl hd].
  assert (H : L k (v_fill X c0) c0) by (apply l_fill; auto). revert H. generalize (v_fill X c0) as a. generalize c0 as b. clear H0.
  induction c as [|c1 c IH]; intros b a H; cbn [fold_left]; auto. inversion Ht; subst. apply IH; auto. apply l_fmadd; auto. apply l_fill; auto.
Qed.
Definition cvtt1 (x : Z) : Z :=
  if w =? 32 then fto_int nn F32 mode_ZR 32 x
  else f64_i64l nn (if is256 X then fround nn F64 mode_ZR x else trunc1 (xc X) x).
Lemma f64_i64l_word x : word 64 (f64_i64l nn x).
Proof. unfold f64_i64l, wrap, word. apply Z.mod_pos_bound. lia. Qed.
Lemma l_cvtt k v x : L k v x -> L k (cvtt_int X nn v) (cvtt1 x).
Proof.
  intros Hv. unfold cvtt_int, cvtt1. rewrite (esz_w HX HF). destruct (w_cases HX HF) as [Q | Q]; rewrite Q; cbn [Z.eqb Pos.eqb].
  - apply (@l_map X k (fto_int nn F32 mode_ZR 32)); auto. intros. rewrite Q. apply fto_int_word. lia.
  - assert (E8 : esz (xT X) = 8%nat) by (unfold xw, ew in Q; lia).
    destruct (is256 X) eqn:V.
    + assert (E : cvt_f64_i64_avx (xc X) nn (round_fp nn F64 mode_ZR v) = map (fun x => f64_i64l nn (fround nn F64 mode_ZR x)) v).
      { unfold cvt_f64_i64_avx, round_fp, vmap. destruct (avx2 (xc X)).
        - rewrite f64_i64_map, map_map. reflexivity.
        - rewrite (mux1_ext _ (fun u => map _ u) _ (f64_i64_map nn)), mux1_map, map_map. reflexivity. }
      rewrite E. apply (@l_map X k (fun x => f64_i64l nn (fround nn F64 mode_ZR x))); auto. intros. rewrite Q. apply f64_i64l_word.
    + assert (E : cvt_f64_i64_sse nn (trunc_sse2 (xc X) v) = map (fun x => f64_i64l nn (trunc1 (xc X) x)) v).
      { destruct (wfv_128 HX E8 V (L_wf Hv)) as (a & b & -> & Ha & Hb). rewrite trunc_lanes by auto. rewrite f64_i64_map. reflexivity. }
      rewrite E. apply (@l_map X k (fun x => f64_i64l nn (trunc1 (xc X) x))); auto. intros. rewrite Q. apply f64_i64l_word.
Qed.
(** the int64 to double conversion is right on these builds (CvtProofs) *)
Definition good64 : bool := if is256 X then avx2 (xc X) else negb (sse41 (xc X)).
Definition cvtf1 (i : Z) : Z := if w =? 32 then fof_int F32 (sgn 32 i) else if good64 then i64l nn i else i64l_sse4 nn i.
Lemma l_cvtf k v x : L k v x -> L k (cvt_to_f X true nn v) (cvtf1 x).
Proof.
  intros Hv. unfold cvtf1. destruct (w_cases HX HF) as [Q | Q]; rewrite Q; cbn [Z.eqb Pos.eqb].
  - assert (E4 : esz (xT X) = 4%nat) by (unfold xw, ew in Q; lia). rewrite (@k_i32 X nn v E4). apply (@l_map X k (fun x => fof_int F32 (sgn 32 x))); auto. intros. rewrite Q. apply (@enc_word F32).
  - assert (E8 : esz (xT X) = 8%nat) by (unfold xw, ew in Q; lia). unfold good64. destruct (is256 X) eqn:V; [destruct (avx2 (xc X)) eqn:C|destruct (sse41 (xc X)) eqn:C]; cbn [negb].
    + rewrite (k_i64 HX nn E8) by (try exact (L_wf Hv); right; auto). apply (@l_map X k (i64l nn)); auto. intros. rewrite Q. apply (@enc_word F64).
    + rewrite (k_i64_bad HX nn E8) by (try exact (L_wf Hv); unfold i64_good; rewrite V, C; intros [[? ?] | [? ?]]; discriminate). apply (@l_map X k (i64l_sse4 nn)); auto. intros. rewrite Q. apply (@enc_word F64).
    + rewrite (k_i64_bad HX nn E8) by (try exact (L_wf Hv); unfold i64_good; rewrite V, C; intros [[? ?] | [? ?]]; discriminate). apply (@l_map X k (i64l_sse4 nn)); auto. intros. rewrite Q. apply (@enc_word F64).
    + rewrite (k_i64 HX nn E8) by (try exact (L_wf Hv); left; auto). apply (@l_map X k (i64l nn)); auto. intros. rewrite Q. apply (@enc_word F64).
Qed.
Lemma lmi_ne k a b x y : L k a x -> L k b y -> LM k (cmp_ne (as_int X) a b) (negb (x =? y)).
Proof.
  intros Ha Hb. rewrite (cmp_ne_lanes (as_int_ok HX) (L_wf Ha) (L_wf Hb)).
  exact (@lm_vmap2 (as_int X) k (fun x y => negb (lane_eq (as_int X) x y)) _ _ _ _ Ha Hb).
Qed.

(** movemask of a canonical mask and mask_invoke *)
Lemma movemask_bs Y bs : xty_ok Y -> esz (xT Y) <> 2%nat -> length bs = ext Y -> movemask Y (map (mlane (xw Y)) bs) = bits_Z bs.
Proof.
  intros HY E Lb. rewrite movemask_canon by auto. f_equal. unfold rep, mmbits. destruct (Nat.eqb_spec (esz (xT Y)) 2) as [H|H]; [contradiction|].
  clear. induction bs; cbn [flat_map repeat app]; f_equal; auto.
Qed.
Lemma mask_invoke_len g : forall m x y, length x = length y -> length (mask_invoke g m x y) = length y.
Proof. intros m x. revert m. induction x as [|a x IH]; intros m [|b y]; cbn; intros E; auto. Qed.
Lemma mask_invoke_nth g : forall bs x y k a b c, nth_error bs k = Some c -> nth_error x k = Some a -> nth_error y k = Some b ->
  nth_error (mask_invoke g (bits_Z bs) x y) k = Some (if c then g a else b).
Proof.
  induction bs as [|c0 bs IH]; intros [|a0 x] [|b0 y] [|k] a b c; cbn [nth_error]; try discriminate.
  - intros [= ->] [= ->] [= ->]. cbn [bits_Z mask_invoke nth_error]. rewrite Z.odd_add, Z.odd_mul. cbn [Z.odd andb]. rewrite xorb_false_r. destruct c; reflexivity.
  - intros H1 H2 H3. cbn [bits_Z mask_invoke nth_error].
    replace ((Z.b2z c0 + 2 * bits_Z bs) / 2) with (bits_Z bs). { eapply IH; eauto. }
    rewrite Z.mul_comm, Z.div_add by lia. destruct c0; reflexivity.
Qed.
Lemma bits_Z_0 bs : bits_Z bs = 0 -> Forall (fun b => b = false) bs.
Proof.
  clear. induction bs as [|b bs IH]; intros H; [constructor|]. cbn [bits_Z] in H. pose proof (bits_Z_range bs) as R.
  destruct b; cbn [Z.b2z] in H; [lia|]. constructor; [reflexivity|]. apply IH. lia.
Qed.
Lemma esz_ne2 : esz (xT X) <> 2%nat.
Proof. destruct (w_cases HX HF) as [Q | Q]; unfold xw, ew in Q; lia. Qed.
Lemma l_special g k mk c x vx y vy : (forall v, word w v -> word w (g v)) -> LM k mk c -> L k x vx -> L k y vy ->
  let m := movemask (as_int X) mk in L k (if m =? 0 then y else mask_invoke g m x y) (if c then g vx else vy).
Proof.
  intros Hg (bs & Lb & -> & Hc) Hx Hy. cbv zeta. change (xw X) with (xw (as_int X)). rewrite (@movemask_bs (as_int X)) by (try apply (as_int_ok HX); try exact esz_ne2; exact Lb).
  destruct (Z.eqb_spec (bits_Z bs) 0) as [E|E].
  - pose proof (proj1 (Forall_forall _ _) (bits_Z_0 _ E) _ (nth_error_In _ _ Hc)) as ->. exact Hy.
  - split; [|eapply mask_invoke_nth; [exact Hc|apply Hx|apply Hy]]. destruct Hx as [[Lx Wx] Nx], Hy as [[Ly Wy] Ny]. split. { rewrite mask_invoke_len; lia. }
    apply Forall_forall. intros u Hu. destruct (In_nth_error _ _ Hu) as [j Hj]. assert (Lj : (j < length (mask_invoke g (bits_Z bs) x y))%nat) by (apply nth_error_Some; rewrite Hj; discriminate).
    rewrite mask_invoke_len in Lj by lia.
    destruct (nth_error bs j) as [cb|] eqn:Eb; [|apply nth_error_None in Eb; lia]. destruct (nth_error x j) as [xa|] eqn:Ea; [|apply nth_error_None in Ea; lia].
    destruct (nth_error y j) as [yb|] eqn:Ec; [|apply nth_error_None in Ec; lia]. rewrite (@mask_invoke_nth g _ _ _ _ _ _ _ Eb Ea Ec) in Hj. injection Hj as <-.
    destruct cb; [apply Hg; exact (proj1 (Forall_forall _ _) Wx _ (nth_error_In _ _ Ea))|exact (proj1 (Forall_forall _ _) Wy _ (nth_error_In _ _ Ec))].
Qed.

(** eval_sincos *)
Definition oct1 (a : Z) : Z := Z.land ((cvtt1 (fdiv nn f a (c_pio4 w)) + 1) mod 2 ^ w) (wrap w (-2)).
Definition bit2_1 (i : Z) : Z := shl_bits w (w - 2) (Z.land i 2).
Definition bit4_1 (i : Z) : Z := shl_bits w (w - 3) (Z.land i 4).
Definition red1 (a : Z) : Z :=
  let y := cvtf1 (oct1 a) in
  let z := fma y (nth 0 (dp_sincos w) 0) a in
  let z := fma y (nth 1 (dp_sincos w) 0) z in
  fma y (nth 2 (dp_sincos w) 0) z.
Definition psin1 (z : Z) : Z := let zz := fmul nn f z z in fma (fmul nn f (polevl1 zz (sincof w)) zz) z z.
Definition pcos1 (z : Z) : Z :=
  let zz := fmul nn f z z in
  fadd nn f (fma (c_mhalf w) zz (fmul nn f (polevl1 zz (coscof w)) (fmul nn f zz zz))) (fone w).
Definition esin1 (s a : Z) : Z :=
  let i := oct1 a in Z.lxor (if negb (bit2_1 i =? 0) then pcos1 (red1 a) else psin1 (red1 a)) (Z.lxor (bit4_1 i) s).
Definition ecos1 (a : Z) : Z :=
  let i := oct1 a in Z.lxor (if negb (bit2_1 i =? 0) then psin1 (red1 a) else pcos1 (red1 a)) (Z.lxor (bit4_1 i) (bit2_1 i)).
Lemma lic k c : (k < ext X)%nat -> 0 <= c < 2 ^ 31 -> L k (ifill (as_int X) c) c.
Proof. intros Hk Hc. rewrite <- (@wrap_id X c) at 2. apply li_ifill; auto. unfold word. destruct (w_cases HX HF) as [-> | ->]; lia. Qed.
Lemma l_eval_sincos k sv s av a : L k sv s -> L k av a -> L k (fst (eval_sincos X fm nn sv av)) (esin1 s a) /\ L k (snd (eval_sincos X fm nn sv av)) (ecos1 a).
Proof.
  intros Hs Ha. pose proof (L_lt Ha) as Hk. destruct tabs_ok as ((D1 & _) & (S1 & S2) & (C1 & C2) & _).
  destruct consts_ok as ((_ & K4 & _) & (_ & Kh & _) & (_ & _ & _ & K1 & _) & _).
  unfold eval_sincos. cbv zeta.
  set (i := v_and (v_add (as_int X) (ieee nn) (cvtt_int X nn (v_div_f X (ieee nn) av (v_fill X (c_pio4 w)))) (ifill (as_int X) 1)) (ifill (as_int X) (-2))).
  assert (Hi : L k i (oct1 a)).
  { unfold i, oct1. exact (l_and HX (li_add HX (ieee nn) (l_cvtt (lf_div HX HF nn Ha (@l_fill X k _ Hk K4))) (lic (c := 1) Hk ltac:(lia))) (li_ifill HX HF (-2) Hk)). }
  clearbody i.
  assert (H2 : L k (c_shiftl (as_int X) (w - 2) (v_and i (ifill (as_int X) 2))) (bit2_1 (oct1 a))).
  { unfold bit2_1. exact (li_shiftl HX (w - 2) (l_and HX Hi (lic (c := 2) Hk ltac:(lia)))). }
  assert (H4 : L k (c_shiftl (as_int X) (w - 3) (v_and i (ifill (as_int X) 4))) (bit4_1 (oct1 a))).
  { unfold bit4_1. exact (li_shiftl HX (w - 3) (l_and HX Hi (lic (c := 4) Hk ltac:(lia)))). }
  set (b2 := c_shiftl (as_int X) (w - 2) (v_and i (ifill (as_int X) 2))) in *. set (b4 := c_shiftl (as_int X) (w - 3) (v_and i (ifill (as_int X) 4))) in *. clearbody b2 b4.
  assert (Hm := lmi_ne H2 (li_zero HX Hk)).
  set (zv := v_fmadd X fm nn (cvt_to_f X true nn i) (v_fill X (nth 2 (dp_sincos w) 0)) (v_fmadd X fm nn (cvt_to_f X true nn i) (v_fill X (nth 1 (dp_sincos w) 0)) (v_fmadd X fm nn (cvt_to_f X true nn i) (v_fill X (nth 0 (dp_sincos w) 0)) av))).
  assert (Hz : L k zv (red1 a)).
  { assert (Hy := l_cvtf Hi). assert (Dn : forall n, (n < 3)%nat -> L k (v_fill X (nth n (dp_sincos w) 0)) (nth n (dp_sincos w) 0)).
    { intros n Hn. apply l_fill; auto. apply (proj1 (Forall_forall _ _) D1). apply nth_In. unfold dp_sincos. destruct (w =? 32); exact Hn. }
    unfold zv, red1. cbv zeta. exact (l_fmadd HX HF nn fm Hk Hy (Dn 2%nat ltac:(lia)) (l_fmadd HX HF nn fm Hk Hy (Dn 1%nat ltac:(lia)) (l_fmadd HX HF nn fm Hk Hy (Dn 0%nat ltac:(lia)) Ha))). }
  clearbody zv. assert (Hzz := lf_mul HX HF nn Hz Hz).
  assert (P1 := l_fmadd HX HF nn fm Hk (lf_mul HX HF nn (l_polevl Hk S1 S2 Hzz) Hzz) Hz Hz).
  assert (P2 := lf_add HX HF nn (l_fmadd HX HF nn fm Hk (@l_fill X k _ Hk Kh) Hzz (lf_mul HX HF nn (l_polevl Hk C1 C2 Hzz) (lf_mul HX HF nn Hzz Hzz))) (@l_fill X k _ Hk K1)).
  cbn [fst snd]. split.
  - exact (l_xor HX (l_blend HX P1 P2 Hm) (l_xor HX H4 Hs)).
  - exact (l_xor HX (l_blend HX P2 P1 Hm) (l_xor HX H4 H2)).
Qed.

(** impl_sincos *)
Definition dom1 (a : Z) : Z := if he then (if feq w a (finf w) then fdiv nn f (fsub nn f a a) 0 else a) else a.
Definition over1 (a : Z) : bool := flt w (c_oflow w) a.
Definition sx1 (x : Z) : Z := sbit f (fsign w x).
Definition ab1 (x : Z) : Z := Z.lxor x (sx1 x).
Definition sin1 (ls : Z -> Z) (x : Z) : Z := let a := dom1 (ab1 x) in if over1 a then ls x else esin1 (sx1 x) a.
Definition cos1 (lc : Z -> Z) (x : Z) : Z := let a := dom1 (ab1 x) in if over1 a then lc x else ecos1 a.
Lemma ab1_mag x : word w x -> ab1 x = fmag w x.
Proof.
  intros Hx. unfold ab1, sx1, sbit. rewrite <- (xw_fw HX HF). unfold fsign, fmag, word in *. set (n := w - 1) in *. assert (Hn : 0 <= n) by (unfold n; destruct (w_cases HX HF) as [-> | ->]; lia).
  assert (W2 : 2 ^ w = 2 * 2 ^ n). { unfold n. rewrite <- Z.pow_succ_r by (fold n; lia). f_equal. lia. } clearbody n. rewrite W2 in Hx. clear W2. pose proof (pow2_pos n Hn).
  destruct (Z.leb_spec (2 ^ n) x) as [B|B].
  - replace x with (x mod 2 ^ n + 2 ^ n) at 1. 2:{ rewrite <- (Z.mod_add x (-1) (2 ^ n)) by lia. rewrite Z.mod_small; lia. }
    set (r := x mod 2 ^ n). assert (R : 0 <= r < 2 ^ n) by (apply Z.mod_pos_bound; lia).
    assert (N0 : Z.land r (2 ^ n) = 0).
    { apply Z.bits_inj'. intros j Hj. rewrite Z.land_spec, Z.pow2_bits_eqb, Z.bits_0 by auto. destruct (Z.eqb_spec n j) as [<-|]; [|apply andb_false_r].
      rewrite Z.testbit_eqb, Z.div_small by lia. reflexivity. }
    rewrite (Z.add_nocarry_lxor _ _ N0), Z.lxor_assoc, Z.lxor_nilpotent, Z.lxor_0_r. reflexivity.
  - rewrite Z.lxor_0_r. symmetry. apply Z.mod_small. lia.
Qed.
Lemma l_sx k v x : L k v x -> L k (masksign X v) (sx1 x).
Proof. intros H. unfold sx1. exact (lf_sign HX HF H). Qed.
Lemma l_ab k v x : L k v x -> L k (v_xor v (masksign X v)) (ab1 x).
Proof. intros H. exact (l_xor HX H (l_sx H)). Qed.
Lemma l_dom k v a : L k v a -> L k (trig_domain X he nn v) (dom1 a).
Proof.
  intros H. pose proof (L_lt H) as Hk. destruct consts_ok as (_ & _ & _ & Ki). unfold trig_domain, dom1. destruct he; auto. cbv zeta.
  apply (l_invalid HX HF nn H H). unfold isinf_abs. exact (@lm_cmp X k (feq w) _ _ _ _ H (@l_fill X k _ Hk Ki)).
Qed.
Lemma lm_over k v a : L k v a -> LM k (cvt_has_overflow X v) (over1 a).
Proof. intros H. pose proof (L_lt H) as Hk. destruct consts_ok as (_ & _ & (_ & _ & Ko & _) & _). exact (lmf_gt HX HF H (@l_fill X k _ Hk Ko)). Qed.
Lemma over_0 : over1 0 = false.
Proof. unfold over1. destruct (w_cases HX HF) as [-> | ->]; reflexivity. Qed.
Lemma l_sincos ls lc k v x : (forall v, word w v -> word w (ls v)) -> (forall v, word w v -> word w (lc v)) -> L k v x ->
  L k (fst (k_sincos X fm he nn ls lc v)) (sin1 ls x) /\ L k (snd (k_sincos X fm he nn ls lc v)) (cos1 lc x).
Proof.
  intros Hls Hlc H. assert (Hs := l_sx H). assert (Ha := l_dom (l_ab H)). unfold k_sincos, sin1, cos1. cbv zeta.
  set (av := trig_domain X he nn (v_xor v (masksign X v))) in *. set (a := dom1 (ab1 x)) in *. clearbody av a.
  assert (Ho := lm_over Ha). assert (Hz := l_seln HX Ho Ha).
  destruct (l_eval_sincos Hs Hz) as [E1 E2]. set (y := eval_sincos X fm nn (masksign X v) (v_andnot (cvt_has_overflow X av) av)) in *. clearbody y.
  assert (Q1 := l_special ls Hls Ho H E1). assert (Q2 := l_special lc Hlc Ho H E2). cbv zeta in Q1, Q2.
  destruct (over1 a); destruct (movemask (as_int X) (cvt_has_overflow X av) =? 0); cbn [fst snd]; auto.
Qed.

(** impl_tan *)
Definition tan1 (lt : Z -> Z) (x : Z) : Z :=
  let a := dom1 (ab1 x) in
  if over1 a then lt x
  else if flt w a (c_pio32 w) then fmul nn f (polevl1 (fmul nn f x x) (tancof w)) x
  else fdiv nn f (esin1 (sx1 x) a) (ecos1 a).
Lemma fill_bits_all bs : bits_Z bs = fill_bits (length bs) -> Forall (fun b => b = true) bs.
Proof.
  unfold fill_bits. induction bs as [|b bs IH]; intros H; constructor; cbn [bits_Z length] in H; rewrite Nat2Z.inj_succ, Z.pow_succ_r in H by lia; pose proof (bits_Z_range bs).
  - destruct b; auto. cbn [Z.b2z] in H. lia.
  - apply IH. destruct b; cbn [Z.b2z] in H; lia.
Qed.
Lemma l_tan lt k v x : (forall v, word w v -> word w (lt v)) -> L k v x -> L k (k_tan X fm he nn lt v) (tan1 lt x).
Proof.
  intros Hlt H. pose proof (L_lt H) as Hk. assert (Hs := l_sx H). assert (Ha := l_dom (l_ab H)). unfold k_tan, tan1. cbv zeta.
  destruct consts_ok as ((K32 & _) & _). destruct tabs_ok as (_ & _ & _ & (T1 & T2) & _).
  set (av := trig_domain X he nn (v_xor v (masksign X v))) in *. set (a := dom1 (ab1 x)) in *. clearbody av a.
  assert (Hm : LM k (cmp_gt X (v_fill X (c_pio32 w)) av) (flt w a (c_pio32 w))) by exact (lmf_gt HX HF (@l_fill X k _ Hk K32) Ha).
  set (pm := cmp_gt X (v_fill X (c_pio32 w)) av) in *. clearbody pm. set (c := flt w a (c_pio32 w)) in *. clearbody c.
  destruct (l_eval_sincos Hs Ha) as [E1 E2]. assert (P1 := lf_div HX HF nn E1 E2).
  assert (P2 := lf_mul HX HF nn (l_polevl Hk T1 T2 (lf_mul HX HF nn H H)) H).
  set (p1 := fdiv nn f _ _) in *. set (p2 := fmul nn f _ x) in *. clearbody p1 p2.
  set (y := blendv X _ _ pm). assert (Hy : L k y (if c then p2 else p1)).
  { unfold y. destruct Hm as (bs & Lb & -> & Hc). rewrite movemask_bs by (auto; exact esz_ne2).
    assert (Hm' : LM k (map (mlane w) bs) c) by (exists bs; auto).
    destruct (Z.eqb_spec (bits_Z bs) (fill_bits (ext X))) as [A|A].
    - rewrite <- Lb in A. pose proof (proj1 (Forall_forall _ _) (fill_bits_all _ A) _ (nth_error_In _ _ Hc)) as ->.
      destruct (Z.eqb_spec (bits_Z bs) 0) as [B|B]. { pose proof (proj1 (Forall_forall _ _) (bits_Z_0 _ B) _ (nth_error_In _ _ Hc)). discriminate. }
      exact (l_blend HX (l_zero HX Hk) P2 Hm').
    - destruct (Z.eqb_spec (bits_Z bs) 0) as [B|B].
      + pose proof (proj1 (Forall_forall _ _) (bits_Z_0 _ B) _ (nth_error_In _ _ Hc)) as ->. exact (l_blend HX P1 (l_zero HX Hk) Hm').
      + exact (l_blend HX P1 P2 Hm'). }
  clearbody y. exact (l_special lt Hlt (lm_over Ha) H Hy).
Qed.

(** asin, acos *)
Definition easin1 (a s : Z) : Z :=
  let a1 := fsub nn f (fone w) a in
  let p1 := fmul nn f a1 (fdiv nn f (polevl1 a1 (asin_r w)) (polevl1 a1 (asin_s w))) in
  let q1 := fsqrt nn f (fadd nn f a1 a1) in
  let b1 := fsub nn f (c_pio4 w) q1 in
  let q1 := fmsub1 (X := X) nn fm q1 p1 (c_asin_off w) in
  let p1 := fsub nn f (fadd nn f b1 (c_pio4 w)) q1 in
  let a2 := fmul nn f a a in
  let p2 := fdiv nn f (polevl1 a2 (asin_p w)) (polevl1 a2 (asin_q w)) in
  let p2 := fma a (fmul nn f a2 p2) a in
  Z.lxor (if flt w a (c_asin_pmin w) then a else if flt w (c_five_eights w) a then p1 else p2) s.
Lemma l_easin k av a sv s : L k av a -> L k sv s -> L k (eval_asin X fm nn av sv) (easin1 a s).
Proof.
  intros Ha Hs. pose proof (L_lt Ha) as Hk. destruct consts_ok as ((_ & K4 & _ & _ & K5) & (_ & _ & _ & _ & Kp) & (Ko & _ & _ & K1 & _) & _).
  destruct tabs_ok as (_ & _ & _ & _ & (R1 & R2) & (S1 & S2) & (P1 & P2) & (Q1 & Q2) & _).
  assert (C4 := @l_fill X k _ Hk K4). assert (C5 := @l_fill X k _ Hk K5). assert (Cp := @l_fill X k _ Hk Kp). assert (Co := @l_fill X k _ Hk Ko). assert (C1 := @l_fill X k _ Hk K1).
  assert (A1 := lf_sub HX HF nn C1 Ha).
  assert (B1 := lf_mul HX HF nn A1 (lf_div HX HF nn (l_polevl Hk R1 R2 A1) (l_polevl Hk S1 S2 A1))).
  assert (A2 := l_sqrt HX HF nn (lf_add HX HF nn A1 A1)).
  assert (B2 := lf_sub HX HF nn C4 A2).
  assert (A3 := l_fmsub HX HF nn fm Hk A2 B1 Co).
  assert (B3 := lf_sub HX HF nn (lf_add HX HF nn B2 C4) A3).
  assert (D1 := lf_mul HX HF nn Ha Ha).
  assert (D2 := lf_div HX HF nn (l_polevl Hk P1 P2 D1) (l_polevl Hk Q1 Q2 D1)).
  assert (D3 := l_fmadd HX HF nn fm Hk Ha (lf_mul HX HF nn D1 D2) Ha).
  exact (l_xor HX (l_blend HX (l_blend HX D3 B3 (lmf_gt HX HF Ha C5)) Ha (@lm_cmp X k (flt w) _ _ _ _ Ha Cp)) Hs).
Qed.
Definition adom1 (a : Z) : Z := if he then (if flt w (fone w) a then fdiv nn f (fsub nn f a a) 0 else a) else a.
Lemma l_adom k v a : L k v a -> L k (asin_domain X he nn v) (adom1 a).
Proof.
  intros H. pose proof (L_lt H) as Hk. destruct consts_ok as (_ & _ & (_ & _ & _ & K1 & _) & _). unfold asin_domain, adom1. destruct he; auto. cbv zeta.
  exact (l_invalid HX HF nn H H (lmf_gt HX HF H (@l_fill X k _ Hk K1))).
Qed.
Definition asin1 (x : Z) : Z := easin1 (adom1 (ab1 x)) (sx1 x).
Lemma l_asin k v x : L k v x -> L k (k_asin X fm he nn v) (asin1 x).
Proof. intros H. exact (l_easin (l_adom (l_ab H)) (l_sx H)). Qed.
Definition acos1 (x : Z) : Z :=
  let a := adom1 (ab1 x) in
  if flt w (c_half w) x then fmul nn f (c_two w) (easin1 (fsqrt nn f (fma a (c_mhalf w) (c_half w))) 0)
  else fadd nn f (fadd nn f (fsub nn f (c_pio4 w) (easin1 a (sx1 x))) (c_asin_off w)) (c_pio4 w).
Lemma l_acos k v x : L k v x -> L k (k_acos X fm he nn v) (acos1 x).
Proof.
  intros H. pose proof (L_lt H) as Hk. destruct consts_ok as ((_ & K4 & _) & (Kh & Km & _ & K2 & _) & (Ko & _) & _).
  assert (Ch := @l_fill X k _ Hk Kh). assert (Cm := @l_fill X k _ Hk Km). assert (C2 := @l_fill X k _ Hk K2). assert (Co := @l_fill X k _ Hk Ko). assert (C4 := @l_fill X k _ Hk K4).
  assert (Ha := l_adom (l_ab H)).
  assert (A1 := lf_mul HX HF nn C2 (l_easin (l_sqrt HX HF nn (l_fmadd HX HF nn fm Hk Ha Cm Ch)) (l_zero HX Hk))).
  assert (A2 := lf_add HX HF nn (lf_add HX HF nn (lf_sub HX HF nn C4 (l_easin Ha (l_sx H))) Co) C4).
  exact (l_blend HX A2 A1 (lmf_gt HX HF H Ch)).
Qed.

(** atan *)
Definition patan1 (a : Z) : Z := let z := fmul nn f a a in fma a (fmul nn f z (fdiv nn f (polevl1 z (atan_p w)) (polevl1 z (atan_q w)))) a.
Definition ared1 (a : Z) : Z :=
  let mone := 2 ^ (w - 1) + fone w in
  if flt w (c_tan3pio8 w) a then fdiv nn f mone (if feq w a 0 then fone w else a)
  else if flt w (c_p66 w) a then fdiv nn f (fadd nn f a mone) (fadd nn f a (fone w)) else a.
Definition eatan1 (a : Z) : Z :=
  let m2 := flt w (c_tan3pio8 w) a in
  let m4 := flt w (c_p66 w) a in
  let b := ared1 a in
  let y := if m2 then c_pio2 w else if m4 then c_pio4 w else 0 in
  let z := fadd nn f (fadd nn f (patan1 b) (if m2 || m4 then c_asin_off2 w else 0)) (if m2 then c_asin_off2 w else 0) in
  if feq w b (finf w) then c_pio2 w else fadd nn f y z.
Definition atan1 (x : Z) : Z := Z.lxor (eatan1 (ab1 x)) (sx1 x).
Lemma l_atan k v x : L k v x -> L k (k_atan X fm nn v) (atan1 x).
Proof.
  intros H. pose proof (L_lt H) as Hk. destruct consts_ok as ((_ & K4 & K2 & K3 & _) & (_ & _ & K6 & _) & (_ & Ko & _ & K1 & Km) & Ki).
  destruct tabs_ok as (_ & _ & _ & _ & _ & _ & _ & _ & (P1 & P2) & (Q1 & Q2)).
  assert (C4 := @l_fill X k _ Hk K4). assert (C2 := @l_fill X k _ Hk K2). assert (C3 := @l_fill X k _ Hk K3). assert (C6 := @l_fill X k _ Hk K6).
  assert (Co := @l_fill X k _ Hk Ko). assert (C1 := @l_fill X k _ Hk K1). assert (Cm := @l_fill X k _ Hk Km). assert (Ci := @l_fill X k _ Hk Ki).
  assert (Ha := l_ab H). assert (M2 := lmf_gt HX HF Ha C3). assert (M4 := lmf_gt HX HF Ha C6). assert (Mz := lmf_eq HX HF Ha (l_zero HX Hk)).
  assert (A4 := lf_div HX HF nn (lf_add HX HF nn Ha Cm) (lf_add HX HF nn Ha C1)).
  assert (A2 := lf_div HX HF nn Cm (l_blend HX Ha C1 Mz)).
  assert (Hb := l_blend HX (l_blend HX Ha A4 M4) A2 M2).
  assert (Hy := l_blend HX (l_blend HX (l_zero HX Hk) C4 M4) C2 M2).
  assert (Hz := lf_mul HX HF nn Hb Hb).
  assert (Hp := l_fmadd HX HF nn fm Hk Hb (lf_mul HX HF nn Hz (lf_div HX HF nn (l_polevl Hk P1 P2 Hz) (l_polevl Hk Q1 Q2 Hz))) Hb).
  assert (Hz1 := lf_add HX HF nn Hp (l_sel HX (lm_or HX M2 M4) Co)).
  assert (Hz2 := lf_add HX HF nn Hz1 (l_sel HX M2 Co)).
  exact (l_xor HX (l_blend HX (lf_add HX HF nn Hy Hz2) C2 (@lm_cmp X k (feq w) _ _ _ _ Hb Ci)) (l_sx H)).
Qed.
End Trig.
