(** hypot acts on every lane separately: its lane functions, and facts about them. *)
From Coq Require Import ZifyBool ZifyNat Reals Lra.
From Flocq Require Import Core IEEE754.BinarySingleNaN IEEE754.Binary.
From Verif Require Import Base Cxx Spec X86Vec X86 X86Lemmas X86Proofs X86Ops X86Shift Fp FpLemmas FpOps FKern FMath FMathProofs FLane FManip FManipLanes FArith FCvt Hypot PropArith.
Set Implicit Arguments.

Section Lanes.
Open Scope Z_scope.
Context {X : xty} (HX : xty_ok X) (HF : is_int (xT X) = false) (nn : nans).
Local Notation w := (xw X).
Local Notation f := (xf X).
Local Notation L := (L X).
Local Notation LM := (LM X).
Open Scope nat_scope.

Lemma l_sqrt k v x : L k v x -> L k (v_sqrt X nn v) (fsqrt nn f x).
Proof. apply (@l_map X k (fsqrt nn f)). intros. rewrite (xw_fw HX HF). apply fsqrt_word. Qed.
Lemma l_rcp k v x : k < ext X -> L k v x -> L k (v_rcp X nn v) (fdiv nn f (fone w) x).
Proof.
  intros Hk H. unfold v_rcp. apply (lf_div HX HF nn); [|exact H]. apply l_fill; auto.
  unfold word, fone. destruct HX as (_ & HT & _). unfold ety_ok in HT. unfold is_int in HF. destruct (ek (xT X)); [discriminate|]. unfold xw, ew. destruct HT as [-> | ->]; cbn; lia.
Qed.

Definition hia (a b : Z) : Z := if negb (flt w (fmag w a) (fmag w b)) then fmag w a else fmag w b.
Definition hib (a b : Z) : Z := if negb (flt w (fmag w a) (fmag w b)) then fmag w b else fmag w a.
Lemma l_prep k a b x y : k < ext X -> L k a x -> L k b y -> L k (fst (prep_hypot X a b)) (hia x y) /\ L k (snd (prep_hypot X a b)) (hib x y).
Proof.
  intros Hk Ha Hb. unfold prep_hypot. cbn [fst snd].
  assert (Ws : word w (2 ^ (w - 1))). { unfold word. pose proof (w_pos HX). rewrite (pow2_pred w) by lia. pose proof (pow2_pos (w - 1)). lia. }
  assert (E : forall v z, L k v z -> L k (v_andnot (v_fill X (2 ^ (w - 1))) v) (fmag w z)). {
    intros v z Hv. assert (Q : Z.ldiff z (2 ^ (w - 1)) = fmag w z). {
      unfold fmag. rewrite <- Z.land_ones by (pose proof (w_pos HX); lia). apply Z.bits_inj'. intros n Hn. rewrite Z.ldiff_spec, Z.land_spec, Z.testbit_ones_nonneg, Z.pow2_bits_eqb by (pose proof (w_pos HX); lia).
      destruct (Z.ltb_spec n (w - 1)). { replace (w - 1 =? n)%Z with false by lia. reflexivity. }
      destruct (Z.eqb_spec (w - 1) n); [destruct (Z.testbit z n); reflexivity|]. cbn [negb]. rewrite andb_true_r, andb_false_r.
      pose proof (L_word Hv) as [R0 R1]. destruct (Z.eq_dec z 0) as [->|]; [apply Z.bits_0|]. apply Z.bits_above_log2; auto. assert (Z.log2 z < w)%Z by (apply Z.log2_lt_pow2; lia). lia. }
    rewrite <- Q. apply (l_andnot HX); auto. apply l_fill; auto. }
  pose proof (lm_cmp (fun x y => negb (flt w x y)) (E _ _ Ha) (E _ _ Hb)) as M. unfold hia, hib. split.
  - exact (li_blend HX (E _ _ Hb) (E _ _ Ha) M).
  - exact (li_blend HX (E _ _ Ha) (E _ _ Hb) M).
Qed.

(** float *)
Definition dist1 (fm : bool) (x y : Z) : Z :=
  let a := fcvt nn F32 F64 x in let b := fcvt nn F32 F64 y in
  fcvt nn F64 F32 (fsqrt nn F64 (if fm then ffma nn F64 a a (fmul nn F64 b b) else fadd nn F64 (fmul nn F64 a a) (fmul nn F64 b b))).
Lemma vmap2_nil_r {A B C} (g : A -> B -> C) a : vmap2 g a [] = []. Proof. now destruct a. Qed.
Lemma eval_lanes fm x y z : esz (xT X) = 4 -> wfv X x -> wfv X y -> wfv X z -> eval_hypotf X fm nn x y z = vmap3 (fun x y z => fmul nn F32 z (dist1 fm x y)) x y z.
Proof.
  intros E4 [Lx _] [Ly _] [Lz _]. assert (Ee : ext X = if is256 X then 8 else 4). { rewrite (proj1 (ext_cases HX)), E4. destruct (is256 X); reflexivity. }
  unfold eval_hypotf, dist1, cvtpd_ps, cvtps_pd, dist64, vmap. generalize (fmul nn F32) (fcvt nn F32 F64) (fcvt nn F64 F32) (fsqrt nn F64) (fmul nn F64) (ffma nn F64) (fadd nn F64). intros m32 c1 c2 sq m64 fm64 a64. rewrite Ee in *. destruct (is256 X).
  - destruct x as [|x0 [|x1 [|x2 [|x3 [|x4 [|x5 [|x6 [|x7 [|]]]]]]]]]; try discriminate. destruct y as [|y0 [|y1 [|y2 [|y3 [|y4 [|y5 [|y6 [|y7 [|]]]]]]]]]; try discriminate.
    destruct z as [|z0 [|z1 [|z2 [|z3 [|z4 [|z5 [|z6 [|z7 [|]]]]]]]]]; try discriminate.
    destruct fm; reflexivity.
  - destruct x as [|x0 [|x1 [|x2 [|x3 [|]]]]]; try discriminate. destruct y as [|y0 [|y1 [|y2 [|y3 [|]]]]]; try discriminate. destruct z as [|z0 [|z1 [|z2 [|z3 [|]]]]]; try discriminate.
    destruct (avx (xc X)), fm; reflexivity.
Qed.
Definition f_big (ia : Z) : bool := (sgn w ia >? sgn w (0xbb * 2 ^ 23 - 1))%Z.
Definition f_smallm (ia ib : Z) : bool := negb (f_big ia) && (sgn w (0x43 * 2 ^ 23) >? sgn w ib)%Z.
Definition f_mult (ia ib : Z) : Z := if f_big ia || f_smallm ia ib then (if f_big ia then 0x12800000 else 0x6c800000)%Z else 0x3f800000%Z.
Definition f_scale (ia ib : Z) : Z := if f_big ia || f_smallm ia ib then (if f_big ia then 0x6c800000 else 0x12800000)%Z else 0x3f800000%Z.
Definition f_abs (ia ib : Z) : bool := (ib =? 0)%Z || (sgn w ((ia - ib) mod 2 ^ w) >? sgn w (25 * 2 ^ 23 - 1))%Z.
Definition f_c0 (fm : bool) (ia ib : Z) : Z :=
  let m := f_mult ia ib in let s := f_abs ia ib in
  fmul nn F32 (f_scale ia ib) (dist1 fm (if s then 0%Z else fmul nn f ib m) (if s then 0%Z else fmul nn f ia m)).
Definition hypf1 (fm pn : bool) (a b : Z) : Z :=
  let ia := hia a b in let ib := hib a b in let s := f_abs ia ib in
  if pn then
    let inf_a := (sgn w ia >? sgn w (0xff * 2 ^ 23 - 1))%Z in
    let inf_b := (ib =? 0xff * 2 ^ 23)%Z in
    if inf_b || (inf_a || s) then fadd nn f (if inf_b then ib else ia) (if s then ib else 0%Z) else f_c0 fm ia ib
  else if s then fadd nn f ia ib else f_c0 fm ia ib.
Lemma l_hypotf fm pn k a b x y : esz (xT X) = 4 -> k < ext X -> L k a x -> L k b y -> L k (k_hypotf X fm pn nn a b) (hypf1 fm pn x y).
Proof.
  intros E4 Hk Ha Hb. unfold k_hypotf. destruct (prep_hypot X a b) as [ia ib] eqn:EP. pose proof (l_prep Hk Ha Hb) as [Pa Pb]. rewrite EP in Pa, Pb. cbn [fst snd] in Pa, Pb.
  assert (Ew : w = 32%Z) by (unfold xw, ew; rewrite E4; reflexivity).
  assert (Ef : f = F32) by (unfold xf, fmt_of; rewrite Ew; reflexivity).
  assert (Wc : forall c, (0 <= c < 2 ^ 32)%Z -> word w c) by (intros; unfold word; rewrite Ew; auto).
  pose proof (lmi_gt HX Pa (@li_fill X k (0xbb * 2 ^ 23 - 1) Hk (Wc (0xbb * 2 ^ 23 - 1)%Z ltac:(clear; lia)))) as Big. fold (f_big (hia x y)) in Big.
  pose proof (lm_andnot Big (lmi_gt HX (@li_fill X k (0x43 * 2 ^ 23) Hk (Wc (0x43 * 2 ^ 23)%Z ltac:(clear; lia))) Pb)) as Sm. fold (f_smallm (hia x y) (hib x y)) in Sm.
  pose proof (lm_or HX Big Sm) as Off.
  assert (C1 : L k (v_fill X 0x3f800000) 0x3f800000) by (apply l_fill; auto; apply Wc; clear; lia).
  assert (C2 : L k (v_fill X 0x12800000) 0x12800000) by (apply l_fill; auto; apply Wc; clear; lia).
  assert (C3 : L k (v_fill X 0x6c800000) 0x6c800000) by (apply l_fill; auto; apply Wc; clear; lia).
  pose proof (l_blend HX C1 (l_blend HX C3 C2 Big) Off) as Mu. fold (f_mult (hia x y) (hib x y)) in Mu.
  pose proof (l_blend HX C1 (l_blend HX C2 C3 Big) Off) as Sc. fold (f_scale (hia x y) (hib x y)) in Sc.
  pose proof (lm_or HX (lmi_eq HX Pb (li_zero HX Hk)) (lmi_gt HX (li_sub HX (ieee nn) Pa Pb) (@li_fill X k (25 * 2 ^ 23 - 1) Hk (Wc (25 * 2 ^ 23 - 1)%Z ltac:(clear; lia))))) as Ab. fold (f_abs (hia x y) (hib x y)) in Ab.
  pose proof (l_seln HX Ab (lf_mul HX HF nn Pa Mu)) as Ma. pose proof (l_seln HX Ab (lf_mul HX HF nn Pb Mu)) as Mb.
  assert (C0 : L k (eval_hypotf X fm nn (v_andnot (v_or (cmp_eq (as_int X) ib (zerov (as_int X))) (cmp_gt (as_int X) (v_sub (as_int X) (ieee nn) ia ib) (v_fill (as_int X) (25 * 2 ^ 23 - 1))))
      (v_mul X (ieee nn) ib (blendv X (v_fill X 0x3f800000) (blendv X (v_fill X 0x6c800000) (v_fill X 0x12800000) (cmp_gt (as_int X) ia (v_fill (as_int X) (0xbb * 2 ^ 23 - 1)))) (v_or (cmp_gt (as_int X) ia (v_fill (as_int X) (0xbb * 2 ^ 23 - 1))) (v_andnot (cmp_gt (as_int X) ia (v_fill (as_int X) (0xbb * 2 ^ 23 - 1))) (cmp_gt (as_int X) (v_fill (as_int X) (0x43 * 2 ^ 23)) ib))))))
      (v_andnot (v_or (cmp_eq (as_int X) ib (zerov (as_int X))) (cmp_gt (as_int X) (v_sub (as_int X) (ieee nn) ia ib) (v_fill (as_int X) (25 * 2 ^ 23 - 1))))
      (v_mul X (ieee nn) ia (blendv X (v_fill X 0x3f800000) (blendv X (v_fill X 0x6c800000) (v_fill X 0x12800000) (cmp_gt (as_int X) ia (v_fill (as_int X) (0xbb * 2 ^ 23 - 1)))) (v_or (cmp_gt (as_int X) ia (v_fill (as_int X) (0xbb * 2 ^ 23 - 1))) (v_andnot (cmp_gt (as_int X) ia (v_fill (as_int X) (0xbb * 2 ^ 23 - 1))) (cmp_gt (as_int X) (v_fill (as_int X) (0x43 * 2 ^ 23)) ib))))))
      (blendv X (v_fill X 0x3f800000) (blendv X (v_fill X 0x12800000) (v_fill X 0x6c800000) (cmp_gt (as_int X) ia (v_fill (as_int X) (0xbb * 2 ^ 23 - 1)))) (v_or (cmp_gt (as_int X) ia (v_fill (as_int X) (0xbb * 2 ^ 23 - 1))) (v_andnot (cmp_gt (as_int X) ia (v_fill (as_int X) (0xbb * 2 ^ 23 - 1))) (cmp_gt (as_int X) (v_fill (as_int X) (0x43 * 2 ^ 23)) ib)))))
      (f_c0 fm (hia x y) (hib x y))). {
    rewrite eval_lanes; [|auto|exact (L_wf Mb)|exact (L_wf Ma)|exact (L_wf Sc)]. unfold f_c0. apply (@l_vmap3 X k (fun x y z => fmul nn F32 z (dist1 fm x y))); auto. intros. rewrite Ew. exact (@fmul_word nn F32 _ _). }
  unfold hypf1. destruct pn.
  - pose proof (lmi_gt HX Pa (@li_fill X k (0xff * 2 ^ 23 - 1) Hk (Wc (0xff * 2 ^ 23 - 1)%Z ltac:(clear; lia)))) as IA.
    pose proof (lmi_eq HX Pb (@li_fill X k (0xff * 2 ^ 23) Hk (Wc (0xff * 2 ^ 23)%Z ltac:(clear; lia)))) as IB.
    exact (l_blend HX C0 (lf_add HX HF nn (l_blend HX Pa Pb IB) (l_selr HX Ab Pb)) (lm_or HX IB (lm_or HX IA Ab))).
  - exact (l_blend HX C0 (lf_add HX HF nn Pa Pb) Ab).
Qed.

(** double *)
Definition split_l (fm : bool) (x : Z) : Z :=
  let xc := fmul nn f x 0x41a0000002000000 in
  let xh := fadd nn f (fsub nn f x xc) xc in
  let xl := fsub nn f x xh in
  let h := fmul nn f x x in
  fmadd1 (X := X) nn fm xl xl (fmadd1 (X := X) nn fm xh (fmul nn f xl 0x4000000000000000) (fmsub1 (X := X) nn fm xh xh h)).
Lemma l_split fm k v x : esz (xT X) = 8 -> k < ext X -> L k v x -> L k (fst (hy_split X fm nn v)) (fmul nn f x x) /\ L k (snd (hy_split X fm nn v)) (split_l fm x).
Proof.
  intros E8 Hk Hv. assert (Ew : w = 64%Z) by (unfold xw, ew; rewrite E8; reflexivity). unfold hy_split. cbn [fst snd].
  assert (C1 : L k (v_fill X 0x41a0000002000000) 0x41a0000002000000) by (apply l_fill; auto; unfold word; rewrite Ew; clear; lia).
  assert (C2 : L k (v_fill X 0x4000000000000000) 0x4000000000000000) by (apply l_fill; auto; unfold word; rewrite Ew; clear; lia).
  pose proof (lf_mul HX HF nn Hv C1) as Xc. pose proof (lf_add HX HF nn (lf_sub HX HF nn Hv Xc) Xc) as Xh. pose proof (lf_sub HX HF nn Hv Xh) as Xl. pose proof (lf_mul HX HF nn Hv Hv) as Hh.
  split; [exact Hh|]. unfold split_l. apply (l_fmadd HX HF); auto. apply (l_fmadd HX HF); auto. { exact (lf_mul HX HF nn Xl C2). } apply (l_fmsub HX HF); auto.
Qed.
Local Notation top x := (lshr_bits 32 x).
Definition d_big (ia : Z) : bool := gtl X ia (0x5fd * 2 ^ 20 - 1).
Definition d_smallm (ia ib : Z) : bool := negb (d_big ia) && gtl X (0x23d * 2 ^ 20) ib.
Definition d_mult (ia ib : Z) : Z := if d_big ia || d_smallm ia ib then (if d_big ia then 0x1430000000000000 else 0x6bb0000000000000)%Z else 0x3ff0000000000000%Z.
Definition d_scale (ia ib : Z) : Z := if d_big ia || d_smallm ia ib then (if d_big ia then 0x6bb0000000000000 else 0x1430000000000000)%Z else 0x3ff0000000000000%Z.
Definition d_abs (ia ib : Z) : bool := (ia =? 0)%Z || gtl X ((ia - ib) mod 2 ^ w) (65 * 2 ^ 20 - 1).
Definition d_c0 (fm : bool) (a b : Z) : Z :=
  let ia := top a in let ib := top b in
  let m := d_mult ia ib in let s := d_abs ia ib in
  let x := if s then 0%Z else fmul nn f a m in let y := if s then 0%Z else fmul nn f b m in
  fmul nn f (d_scale ia ib) (fsqrt nn f (fadd nn f (fadd nn f (split_l fm y) (split_l fm x)) (fadd nn f (fmul nn f y y) (fmul nn f x x)))).
Definition hypd1 (fm pn : bool) (a b : Z) : Z :=
  let a' := hia a b in let b' := hib a b in let ia := top a' in let ib := top b' in let s := d_abs ia ib in
  if pn then
    let inf_a := (sgn w ia >? sgn w (0x7ff * 2 ^ 20 - 1))%Z in
    let inf_b := (ib =? 0x7ff * 2 ^ 20)%Z in
    if inf_b || (inf_a || s) then fadd nn f (if inf_b then b' else a') (if s then b' else 0%Z) else d_c0 fm a' b'
  else if s then fadd nn f a' b' else d_c0 fm a' b'.
Lemma l_hypotd fm pn k a b x y : esz (xT X) = 8 -> k < ext X -> L k a x -> L k b y -> L k (k_hypotd X fm pn nn a b) (hypd1 fm pn x y).
Proof.
  intros E8 Hk Ha Hb. unfold k_hypotd. destruct (prep_hypot X a b) as [a' b'] eqn:EP. pose proof (l_prep Hk Ha Hb) as [Qa Qb]. rewrite EP in Qa, Qb. cbn [fst snd] in Qa, Qb.
  assert (Ew : w = 64%Z) by (unfold xw, ew; rewrite E8; reflexivity).
  assert (Wc : forall c, (0 <= c < 2 ^ 64)%Z -> word w c) by (intros; unfold word; rewrite Ew; auto).
  pose proof (@li_shiftr X k 32 a' (hia x y) ltac:(clear; lia) Qa) as Pa. pose proof (@li_shiftr X k 32 b' (hib x y) ltac:(clear; lia) Qb) as Pb.
  set (ia := c_shiftr (as_int X) 32 a') in *. set (ib := c_shiftr (as_int X) 32 b') in *. set (xa := lshr_bits 32 (hia x y)) in *. set (xb := lshr_bits 32 (hib x y)) in *.
  pose proof (lm_gtl HX Pa (@li_fill X k (0x5fd * 2 ^ 20 - 1) Hk (Wc (0x5fd * 2 ^ 20 - 1)%Z ltac:(clear; lia)))) as Big. fold (d_big xa) in Big.
  pose proof (lm_andnot Big (lm_gtl HX (@li_fill X k (0x23d * 2 ^ 20) Hk (Wc (0x23d * 2 ^ 20)%Z ltac:(clear; lia))) Pb)) as Sm. fold (d_smallm xa xb) in Sm.
  pose proof (lm_or HX Big Sm) as Off.
  assert (C1 : L k (v_fill X 0x3ff0000000000000) 0x3ff0000000000000) by (apply l_fill; auto; apply Wc; clear; lia).
  assert (C2 : L k (v_fill X 0x1430000000000000) 0x1430000000000000) by (apply l_fill; auto; apply Wc; clear; lia).
  assert (C3 : L k (v_fill X 0x6bb0000000000000) 0x6bb0000000000000) by (apply l_fill; auto; apply Wc; clear; lia).
  pose proof (l_blend HX C1 (l_blend HX C3 C2 Big) Off) as Mu. fold (d_mult xa xb) in Mu.
  pose proof (l_blend HX C1 (l_blend HX C2 C3 Big) Off) as Sc. fold (d_scale xa xb) in Sc.
  pose proof (lm_or HX (lmi_eq HX Pa (li_zero HX Hk)) (lm_gtl HX (li_sub HX (ieee nn) Pa Pb) (@li_fill X k (65 * 2 ^ 20 - 1) Hk (Wc (65 * 2 ^ 20 - 1)%Z ltac:(clear; lia))))) as Ab. fold (d_abs xa xb) in Ab.
  pose proof (l_seln HX Ab (lf_mul HX HF nn Qa Mu)) as Ma. pose proof (l_seln HX Ab (lf_mul HX HF nn Qb Mu)) as Mb.
  set (va := v_andnot _ (v_mul X (ieee nn) a' _)) in *. set (vb := v_andnot _ (v_mul X (ieee nn) b' _)) in *.
  pose proof (@l_split fm k va _ E8 Hk Ma) as [Hx Lx]. pose proof (@l_split fm k vb _ E8 Hk Mb) as [Hy Ly].
  destruct (hy_split X fm nn va) as [hx lx]. destruct (hy_split X fm nn vb) as [hy ly]. cbn [fst snd] in Hx, Lx, Hy, Ly.
  pose proof (lf_mul HX HF nn Sc (l_sqrt (lf_add HX HF nn (lf_add HX HF nn Ly Lx) (lf_add HX HF nn Hy Hx)))) as C0.
  match type of C0 with FLane.L _ _ ?v _ => change (L k v (d_c0 fm (hia x y) (hib x y))) in C0 end.
  unfold hypd1. fold xa xb. destruct pn.
  - pose proof (lmi_gt HX Pa (@li_fill X k (0x7ff * 2 ^ 20 - 1) Hk (Wc (0x7ff * 2 ^ 20 - 1)%Z ltac:(clear; lia)))) as IA.
    pose proof (lmi_eq HX Pb (@li_fill X k (0x7ff * 2 ^ 20) Hk (Wc (0x7ff * 2 ^ 20)%Z ltac:(clear; lia)))) as IB.
    exact (l_blend HX C0 (lf_add HX HF nn (l_blend HX Qa Qb IB) (l_selr HX Ab Qb)) (lm_or HX IB (lm_or HX IA Ab))).
  - exact (l_blend HX C0 (lf_add HX HF nn Qa Qb) Ab).
Qed.
Definition hyp1 (fm pn : bool) (a b : Z) : Z := if esz (xT X) =? 4 then hypf1 fm pn a b else hypd1 fm pn a b.
Lemma l_hypot fm pn k a b x y : k < ext X -> L k a x -> L k b y -> L k (k_hypot X fm pn nn a b) (hyp1 fm pn x y).
Proof.
  intros Hk Ha Hb. unfold k_hypot, hyp1. destruct (Nat.eqb_spec (esz (xT X)) 4); [now apply l_hypotf|]. apply l_hypotd; auto.
  destruct HX as (_ & HT & _). unfold ety_ok in HT. unfold is_int in HF. destruct (ek (xT X)); [discriminate|]. tauto.
Qed.
End Lanes.
