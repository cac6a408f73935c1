(** Rounding errors of the polynomial parts of sin and cos (TrigProofs.psin1, pcos1) and their distance to sin and cos. *)
From Coq Require Import ZifyBool ZifyNat Reals Lra.
From Flocq Require Import Core IEEE754.BinarySingleNaN IEEE754.Binary.
From Verif Require Import Base Cxx Spec X86Vec X86 X86Lemmas X86Proofs Fp FpLemmas FpOps FMath FMathProofs FLane FFields FManip FManipLanes PropManip Round RoundProofs RoundSem FArith PropArith FCvt PropHypot PropIeee PropLog FErr IvPoly TrigTab Trig TrigProofs SinPoly.
Set Implicit Arguments.
Open Scope Z_scope.

(** bounds of Horner's scheme: error, magnitude, no overflow *)
Definition pst (f : fmt) (et mt : Z) (s : Z * Z * bool) (a : Z) : Z * Z * bool :=
  let '(e, m, ok) := s in
  (Efma (f := f) e m et mt 0 (mcst f a), Mfma (f := f) m mt (mcst f a), ok && (ofma (f := f) m mt (mcst f a) && apok f a)).
Definition pbound (f : fmt) (et mt : Z) (c : list Z) : Z * Z * bool := fold_left (pst f et mt) (tl c) (0, mcst f (hd 0 c), apok f (hd 0 c)).
Lemma pst_false f et mt c : forall e m e' m', fold_left (pst f et mt) c (e, m, false) = (e', m', true) -> False.
Proof. induction c as [|a c IH]; intros e m e' m'; cbn [fold_left]. - intros [= ]. - unfold pst at 2. cbn [andb]. apply IH. Qed.
Section E.
Context {X : xty} (fm : bool) (nn : nans).
Local Notation f := (xf X).
Local Notation fma := (fmadd1 (X := X) nn fm).
Lemma ap_horner t tr et mt : ap f t tr et mt -> forall l y0 r0 e0 m0 e m, ap f y0 r0 e0 m0 -> fold_left (pst f et mt) l (e0, m0, true) = (e, m, true) ->
  ap f (fold_left (fun y a => fma y t a) l y0) (fold_left (fun y a => y * tr + val f a)%R l r0) e m.
Proof.
  intros Ht. induction l as [|a l IH]; intros y0 r0 e0 m0 e m H0; cbn [fold_left].
  - intros [= -> ->]. exact H0.
  - unfold pst at 2. cbn [andb]. destruct (ofma m0 mt (mcst f a) && apok f a) eqn:O; [|intros H; exfalso; eapply pst_false; exact H].
    apply andb_prop in O. destruct O as [O1 O2]. apply IH. apply ap_fma; auto. now apply ap_const.
Qed.
Lemma ap_polevl t tr et mt c e m : ap f t tr et mt -> pbound f et mt c = (e, m, true) -> ap f (polevl1 (X := X) fm nn t c) (polyR f c tr) e m.
Proof.
  intros Ht. unfold pbound, polevl1, polyR. destruct (apok f (hd 0 c)) eqn:A0; [|intros H; exfalso; eapply pst_false; exact H].
  intros H. eapply ap_horner; eauto. now apply ap_const.
Qed.
Definition sinB (f : fmt) (mz : Z) : Z * Z * bool :=
  let ezz := Emul (f := f) 0 mz 0 mz in let mzz := Mmul (f := f) mz mz in
  let '(ep, mp, o) := pbound f ezz mzz (sincof (fw f)) in
  let eq := Emul (f := f) ep mp ezz mzz in let mq := Mmul (f := f) mp mzz in
  (Efma (f := f) eq mq 0 mz 0 mz, Mfma (f := f) mq mz mz, o && (over f (cd (mz * mz)) && over f (cd (mp * mzz)) && ofma (f := f) mq mz mz)).
Definition cosB (f : fmt) (mz : Z) : Z * Z * bool :=
  let ezz := Emul (f := f) 0 mz 0 mz in let mzz := Mmul (f := f) mz mz in
  let '(ep, mp, o) := pbound f ezz mzz (coscof (fw f)) in
  let e4 := Emul (f := f) ezz mzz ezz mzz in let m4 := Mmul (f := f) mzz mzz in
  let eq := Emul (f := f) ep mp e4 m4 in let mq := Mmul (f := f) mp m4 in
  let mh := mcst f (c_mhalf (fw f)) in
  let eh := Efma (f := f) 0 mh ezz mzz eq mq in let mhh := Mfma (f := f) mh mzz mq in
  let m1 := mcst f (fone (fw f)) in
  (Eadd (f := f) eh mhh 0 m1, Madd (f := f) mhh m1,
   o && (over f (cd (mz * mz)) && over f (cd (mzz * mzz)) && over f (cd (mp * m4)) && ofma (f := f) mh mzz mq && over f (mhh + m1) && apok f (c_mhalf (fw f)) && apok f (fone (fw f)))).
Lemma fone_val : val f (fone (fw f)) = 1%R.
Proof. rewrite zc_ok by (destruct f; reflexivity). replace (zc f (fone (fw f))) with (2 ^ 140) by (destruct f; reflexivity). apply UU_inv. Qed.
Section Z.
Variables (HX : xty_ok X) (HF : is_int (xT X) = false) (z mz e m : Z).
Hypotheses (Wz : word (fw f) z) (Fz : isfin f z = true) (Pm : 0 <= mz) (Bz : (Rabs (val f z) <= IZR mz * UU)%R).
Lemma psin_ap : sinB f mz = (e, m, true) -> ap f (psin1 (X := X) fm nn z) (psinR f (sincof (fw f)) (val f z)) e m.
Proof.
  intros HB. pose proof (xw_fw HX HF) as Ew. pose proof (ap_exact _ Wz Fz Pm Bz) as Az. unfold psin1, psinR. rewrite Ew. unfold sinB in HB.
  destruct (pbound _ _ _ _) as [[ep mp] o] eqn:Q. cbv zeta beta iota in HB. injection HB as <- <- HO. rewrite !andb_true_iff in HO. destruct HO as (-> & (O1 & O2) & O3).
  assert (Azz := ap_mul nn Az Az O1). assert (Ap := ap_polevl _ Azz Q). assert (Aq := ap_mul nn Ap Azz O2). exact (ap_fma nn X fm Aq Az Az O3).
Qed.
Lemma pcos_ap : cosB f mz = (e, m, true) -> ap f (pcos1 (X := X) fm nn z) (pcosR f (coscof (fw f)) (val f z)) e m.
Proof.
  intros HB. pose proof (xw_fw HX HF) as Ew. pose proof (ap_exact _ Wz Fz Pm Bz) as Az. unfold pcos1, pcosR. rewrite Ew. unfold cosB in HB.
  destruct (pbound _ _ _ _) as [[ep mp] o] eqn:Q. cbv zeta beta iota in HB. injection HB as <- <- HO. rewrite !andb_true_iff in HO. destruct HO as (-> & ((((((O1 & O2) & O3) & O4) & O5) & A1) & A2)).
  assert (Azz := ap_mul nn Az Az O1). assert (Ap := ap_polevl _ Azz Q). assert (A4 := ap_mul nn Azz Azz O2). assert (Aq := ap_mul nn Ap A4 O3).
  assert (Ah := ap_fma nn X fm (ap_const _ _ A1) Azz Aq O4). assert (Af := ap_add nn Ah (ap_const _ _ A2) O5). rewrite fone_val in Af. exact Af.
Qed.
End Z.
End E.

(** *** psin1 and pcos1 against sin and cos *)
Definition zmax (f : fmt) : Z := match f with F32 => 3 * 2 ^ 139 | F64 => 79 * 2 ^ 140 / 100 end.       (* 1.5, 0.79 *)
Definition perr (f : fmt) : Z := match f with F32 => 480 * 2 ^ 110 | F64 => 320 * 2 ^ 80 end.            (* 7.5 * 2^-24, 2.5 * 2^-53 *)
Definition npc (f : fmt) : nat := match f with F32 => 19%nat | F64 => 320%nat end.
Definition hpc (f : fmt) : Z := match f with F32 => 2 ^ 137 | F64 => 2 ^ 131 end.   (* 1/8, 1/512: powers of two keep the multiplications cheap *)
Definition psB (f : fmt) : Z := match f with F32 => 2 ^ 114 | F64 => 2 ^ 85 end.
Definition pcB (f : fmt) : Z := match f with F32 => 2 ^ 112 | F64 => 2 ^ 82 end.
Lemma sin_chk f : isub (npc f) (hpc f) (psB f) ((0, 0) :: sinI f (sincof (fw f))) = true. Proof. destruct f; vm_compute; reflexivity. Qed.
Lemma cos_chk f : isub (npc f) (hpc f) (pcB f) ((0, 0) :: cosI f (coscof (fw f))) = true. Proof. destruct f; vm_compute; reflexivity. Qed.
Lemma sin_fin f : exists e m, sinB f (zmax f) = (e, m, true) /\ e + cd (zmax f * psB f) <= perr f.
Proof. exists (fst (fst (sinB f (zmax f)))), (snd (fst (sinB f (zmax f)))). destruct f; vm_compute; split; congruence. Qed.
Lemma cos_fin f : exists e m, cosB f (zmax f) = (e, m, true) /\ e + cd (cd (zmax f * zmax f) * pcB f) <= perr f.
Proof. exists (fst (fst (cosB f (zmax f)))), (snd (fst (cosB f (zmax f)))). destruct f; vm_compute; split; congruence. Qed.
Lemma zmax_sq f v : (Rabs v <= IZR (zmax f) * UU)%R -> (v * v <= IZR (Z.of_nat (npc f) * hpc f) * UU)%R /\ (v * v <= IZR (cd (zmax f * zmax f)) * UU)%R /\ (Rabs v <= 2)%R.
Proof.
  intros H. pose proof UU_pos as UP. assert (Z0 : 0 <= zmax f) by (destruct f; vm_compute; discriminate). apply IZR_le in Z0.
  assert (S : (v * v <= IZR (zmax f * zmax f) * UU * UU)%R).
  { rewrite mult_IZR. replace (IZR (zmax f) * IZR (zmax f) * UU * UU)%R with ((IZR (zmax f) * UU) * (IZR (zmax f) * UU))%R by ring. replace (v * v)%R with (Rabs v * Rabs v)%R by (rewrite <- Rabs_mult; apply Rabs_pos_eq; nra). apply Rmult_le_compat; auto using Rabs_pos. }
  assert (Q : (v * v <= IZR (cd (zmax f * zmax f)) * UU)%R) by (eapply Rle_trans; [exact S|apply cd_ok]). split; [|split; [exact Q|]].
  - eapply Rle_trans; [exact Q|]. apply Rmult_le_compat_r; [lra|]. apply IZR_le. destruct f; vm_compute; discriminate.
  - eapply Rle_trans; [exact H|]. replace 2%R with (IZR (2 ^ 141) * UU)%R. { apply Rmult_le_compat_r; [lra|]. apply IZR_le. destruct f; vm_compute; discriminate. }
    change (2 ^ 141) with (2 * 2 ^ 140). rewrite mult_IZR, Rmult_assoc, UU_inv. ring.
Qed.
Section PE.
Context {X : xty} (HX : xty_ok X) (HF : is_int (xT X) = false) (fm : bool) (nn : nans) (z : Z).
Local Notation f := (xf X).
Hypotheses (Wz : word (fw f) z) (Fz : isfin f z = true) (Bz : (Rabs (val f z) <= IZR (zmax f) * UU)%R).
Lemma z0 : 0 <= zmax f. Proof. destruct f; vm_compute; discriminate. Qed.
Lemma psin_err : let y := psin1 (X := X) fm nn z in word (fw f) y /\ isfin f y = true /\ (Rabs (val f y - sin (val f z)) <= IZR (perr f) * UU)%R.
Proof.
  cbv zeta. destruct (sin_fin f) as (e & m & E & L). destruct (psin_ap fm nn HX HF Wz Fz z0 Bz E) as (A & B & C & _). split; auto. split; auto.
  destruct (zmax_sq _ _ Bz) as (Q1 & Q2 & Q3). pose proof UU_pos as UP.
  pose proof (@psin_diff f (sincof (fw f)) (val f z) (npc f) (hpc f) (psB f) ltac:(destruct f; reflexivity) ltac:(destruct f; vm_compute; reflexivity) (sin_chk f) ltac:(destruct f; vm_compute; discriminate) ltac:(destruct f; cbn; lia) Q3 Q1) as D.
  apply Rle_trans with (IZR (e + cd (zmax f * psB f)) * UU)%R; [|apply Rmult_le_compat_r; [lra|now apply IZR_le]]. rewrite plus_IZR, Rmult_plus_distr_r.
  replace (val f (psin1 (X := X) fm nn z) - sin (val f z))%R with ((val f (psin1 (X := X) fm nn z) - psinR f (sincof (fw f)) (val f z)) + (psinR f (sincof (fw f)) (val f z) - sin (val f z)))%R by ring.
  eapply Rle_trans; [apply Rabs_triang|]. apply Rplus_le_compat; [exact C|]. eapply Rle_trans; [exact D|]. eapply Rle_trans; [|apply cd_ok]. rewrite mult_IZR.
  assert (0 <= IZR (psB f))%R by (apply IZR_le; destruct f; vm_compute; discriminate). replace (IZR (zmax f) * IZR (psB f) * UU * UU)%R with ((IZR (zmax f) * UU) * (IZR (psB f) * UU))%R by ring. apply Rmult_le_compat_r; [nra|exact Bz].
Qed.
Lemma pcos_err : let y := pcos1 (X := X) fm nn z in word (fw f) y /\ isfin f y = true /\ (Rabs (val f y - cos (val f z)) <= IZR (perr f) * UU)%R.
Proof.
  cbv zeta. destruct (cos_fin f) as (e & m & E & L). destruct (pcos_ap fm nn HX HF Wz Fz z0 Bz E) as (A & B & C & _). split; auto. split; auto.
  destruct (zmax_sq _ _ Bz) as (Q1 & Q2 & Q3). pose proof UU_pos as UP.
  pose proof (@pcos_diff f (coscof (fw f)) (val f z) (npc f) (hpc f) (pcB f) ltac:(destruct f; reflexivity) ltac:(destruct f; vm_compute; reflexivity) (cos_chk f) ltac:(destruct f; vm_compute; discriminate) ltac:(destruct f; cbn; lia) Q3 Q1) as D.
  apply Rle_trans with (IZR (e + cd (cd (zmax f * zmax f) * pcB f)) * UU)%R; [|apply Rmult_le_compat_r; [lra|now apply IZR_le]]. rewrite plus_IZR, Rmult_plus_distr_r.
  replace (val f (pcos1 (X := X) fm nn z) - cos (val f z))%R with ((val f (pcos1 (X := X) fm nn z) - pcosR f (coscof (fw f)) (val f z)) + (pcosR f (coscof (fw f)) (val f z) - cos (val f z)))%R by ring.
  eapply Rle_trans; [apply Rabs_triang|]. apply Rplus_le_compat; [exact C|]. eapply Rle_trans; [exact D|]. eapply Rle_trans; [|apply cd_ok]. rewrite mult_IZR.
  assert (0 <= IZR (pcB f))%R by (apply IZR_le; destruct f; vm_compute; discriminate). replace (IZR (cd (zmax f * zmax f)) * IZR (pcB f) * UU * UU)%R with ((IZR (cd (zmax f * zmax f)) * UU) * (IZR (pcB f) * UU))%R by ring. apply Rmult_le_compat_r; [nra|exact Q2].
Qed.
End PE.
Close Scope Z_scope.
