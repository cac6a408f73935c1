(** The numerical facts behind the accuracy of log and log2, all checked by computation. *)
From Coq Require Import ZifyBool ZifyNat Reals Lra.
From Flocq Require Import Core IEEE754.BinarySingleNaN IEEE754.Binary.
From Verif Require Import Base Cxx Spec X86Vec X86 X86Lemmas X86Proofs X86Ops Fp FpLemmas FpOps FMath FMathProofs FLane FFields FManip FManipLanes PropManip Round RoundProofs RoundSem FArith Cvt CvtProofs LogbProofs PropArith FCvt PropHypot PropIeee FRoute FRouteProofs LogTab Log LogProofs PropLog
  FErr IvPoly TrigTab SinPoly LnBound LogRed LogAcc.
Set Implicit Arguments.
Open Scope Z_scope.

(** parameters, in units of 2^-140; [b] selects log2 *)
Definition tolZ (b : bool) (f : fmt) : Z := match f with F32 => 2 ^ 116 | F64 => if b then 2 ^ 72 else 2 ^ 66 end.
Definition mlZ (b : bool) : Z := if b then 3 * 2 ^ 138 else 2 ^ 139.
Definition sclI (b : bool) : Z * Z := if b then ln2I else (S140, S140).
Definition sclR (b : bool) : R := if b then ln 2 else 1%R.
Definition nZ (b : bool) (f : fmt) : nat := match f with F32 => 32 | F64 => if b then 44 else 9 end.
Definition hZ (b : bool) (f : fmt) : Z := match f with F32 => 2 ^ 130 | F64 => if b then 2 ^ 130 else 2 ^ 129 end.
Definition BZ (b : bool) (f : fmt) : Z := match f with F32 => 2 ^ 117 | F64 => if b then 2 ^ 106 else 2 ^ 88 end.
Definition peZ (b : bool) (f : fmt) : Z := cd (rhoZ b f * BZ b f) + 2 * powU (rhoZ b f) 21.
Definition dlZ (b : bool) (f : fmt) : Z := if b then 0 else match f with F32 => 2 ^ 112 | F64 => 2 ^ 85 end.
Definition ltab (b : bool) (w : Z) : list Z := if b then log2tab w else logtab w.
Definition lbits (b : bool) (w : Z) : Z := if b then log2tab_bits w else logtab_bits w.
(** coefficients of the polynomial c(r), from the constant up *)
Definition lpolyW (b : bool) (f : fmt) : list Z :=
  match f with
  | F32 => if b then rev log2coff_f32 else fone 32 :: rev logcoff_f32
  | F64 => if b then log2coff_f64 else fone 64 :: logcoff_f64
  end.
Definition lpolyR (b : bool) (f : fmt) : list R := (if b then match f with F64 => [(val F64 (c_invln2h 64) + val F64 (c_invln2l 64))%R] | _ => [] end else []) ++ map (val f) (lpolyW b f).
Definition lpolyI (b : bool) (f : fmt) : list (Z * Z) :=
  map (fun p => if b then imul (fst ln2I) (snd ln2I) p else p)
  ((if b then match f with F64 => [iadd (ipt (zc F64 (c_invln2h 64))) (ipt (zc F64 (c_invln2l 64)))] | _ => [] end else []) ++ map (fun c => ipt (zc f c)) (lpolyW b f)).
Lemma tab_all b f : tabchk f (lbits b (fw f)) (ltab b (fw f)) (sclI b) (rhoZ b f) (tolZ b f) (mlZ b) = true.
Proof. destruct b, f; vm_compute; reflexivity. Qed.
Lemma poly_all b f : isub (nZ b f) (hZ b f) (BZ b f) (lnpI 20 (lpolyI b f)) && isub (nZ b f) (hZ b f) (BZ b f) (altI false (lnpI 20 (lpolyI b f))) && forallb (zcok f) (lpolyW b f) = true.
Proof. destruct b, f; vm_compute; reflexivity. Qed.
Lemma scl_ok b : iv (sclI b) (sclR b) /\ 0 <= fst (sclI b) /\ (/ 2 <= sclR b)%R.
Proof.
  destruct b; unfold sclI, sclR. 
  - split; [apply ln2_ok|]. split; [vm_compute; discriminate|]. pose proof ln2_ok as [A _]. eapply Rle_trans; [|exact A]. pose proof UU_inv as I. replace (2 ^ 140) with (2 * 2 ^ 139) in I by reflexivity. rewrite mult_IZR in I. pose proof UU_pos.
    assert (IZR (2 ^ 139) * UU <= IZR (fst ln2I) * UU)%R by (apply Rmult_le_compat_r; [lra|apply IZR_le; vm_compute; discriminate]). lra.
  - pose proof UU_inv as I. fold S140 in I. split; [unfold iv; cbn [fst snd]; lra|]. split; [vm_compute; discriminate|lra].
Qed.
Lemma hornerR_scal k l t : (hornerR (map (Rmult k) l) t = k * hornerR l t)%R.
Proof. induction l as [|c l IH]; cbn [map]; [unfold hornerR; cbn; ring|]. change (hornerR (?x :: ?y) ?z) with (x + z * hornerR y z)%R. rewrite IH. ring. Qed.
Lemma lpolyI_ok b f : Forall2 iv (lpolyI b f) (map (Rmult (sclR b)) (lpolyR b f)).
Proof.
  pose proof (poly_all b f) as H. apply andb_prop in H. destruct H as [_ H]. rewrite forallb_forall in H. unfold lpolyI, lpolyR. rewrite !map_app. apply Forall2_app.
  - destruct b, f; cbn [map]; try apply Forall2_nil. apply Forall2_cons; [|apply Forall2_nil]. apply imul_ok; [vm_compute; discriminate|apply ln2_ok|]. apply iadd_ok; apply ipt_ok; reflexivity.
  - induction (lpolyW b f) as [|c l IH]; cbn [map]; constructor; [|apply IH; intros; apply H; now right].
    assert (P := ipt_ok f c (H c (or_introl eq_refl))). destruct b; cbn [sclR]; [|rewrite Rmult_1_l; exact P]. apply imul_ok; [vm_compute; discriminate|apply ln2_ok|exact P].
Qed.
Lemma nh_rho b f : Z.of_nat (nZ b f) * hZ b f = rhoZ b f. Proof. destruct b, f; reflexivity. Qed.
Lemma poly_acc b f r : (Rabs r <= IZR (rhoZ b f) * UU)%R -> (Rabs (sclR b * (r * hornerR (lpolyR b f) r) - ln (1 + r)) <= IZR (peZ b f) * UU)%R.
Proof.
  intros Hr. pose proof (poly_all b f) as H. apply andb_prop in H. destruct H as [H _]. apply andb_prop in H. destruct H as [I1 I2]. rewrite <- nh_rho in Hr.
  assert (Q := @lnp_ok 20 _ _ _ _ _ r (lpolyI_ok b f) I1 I2 ltac:(destruct b, f; vm_compute; discriminate) ltac:(destruct b, f; vm_compute; lia) ltac:(destruct b, f; vm_compute; discriminate) Hr).
  rewrite hornerR_scal in Q. rewrite nh_rho in Q. replace (sclR b * (r * hornerR (lpolyR b f) r))%R with (r * (sclR b * hornerR (lpolyR b f) r))%R by ring. exact Q.
Qed.
Definition lnc (b : bool) (f : fmt) : R := if b then 1%R else val f (c_ln2 (fw f)).
Lemma dl_ok b f : (Rabs (sclR b * lnc b f - ln 2) <= IZR (dlZ b f) * UU)%R.
Proof.
  destruct b; unfold sclR, lnc, dlZ. { replace (ln 2 * 1 - ln 2)%R with 0%R by ring. rewrite Rabs_R0. lra. }
  rewrite Rmult_1_l. assert (Z1 : zcok f (c_ln2 (fw f)) = true) by (destruct f; reflexivity).
  apply iv_abs with (p := isubc (ipt (zc f (c_ln2 (fw f)))) ln2I); [apply isubc_ok; [now apply ipt_ok|apply ln2_ok]|destruct f; vm_compute; discriminate|destruct f; vm_compute; discriminate].
Qed.
Lemma rho_small b f r : (Rabs r <= IZR (rhoZ b f) * UU)%R -> (Rabs r <= / 16)%R.
Proof.
  intros H. eapply Rle_trans; [exact H|]. pose proof UU_inv as I. replace (2 ^ 140) with (16 * 2 ^ 136) in I by reflexivity. rewrite mult_IZR in I. pose proof UU_pos.
  assert (IZR (rhoZ b f) * UU <= IZR (2 ^ 136) * UU)%R by (apply Rmult_le_compat_r; [lra|apply IZR_le; destruct b, f; vm_compute; discriminate]). lra.
Qed.
Lemma ln1p_small r : (Rabs r <= / 16)%R -> (Rabs (ln (1 + r)) <= / 15)%R.
Proof.
  intros H. apply Rabs_le_inv in H. apply Rabs_le. pose proof (@ln_le_x (1 + r) ltac:(lra)) as U. split; [|lra].
  pose proof (@ln_le_x (/ (1 + r)) ltac:(apply Rinv_0_lt_compat; lra)) as L. rewrite ln_Rinv in L by lra. assert (/ (1 + r) <= 16 / 15)%R; [|lra]. replace (16 / 15)%R with (/ (15 / 16))%R by lra. apply Rinv_le_contravar; lra.
Qed.
(** the error bound for |k| = ak *)
Definition roundE (b : bool) (f : fmt) (ak : Z) : Z * bool :=
  match f with F32 => if b then log2B32 F32 (rhoZ b F32) (mlZ b) ak else logB32 F32 (rhoZ b F32) (mlZ b) ak | F64 => if b then log2B64 F64 (rhoZ b F64) (mlZ b) ak else logB64 F64 (rhoZ b F64) (mlZ b) ak end.
Definition totE (b : bool) (f : fmt) (ak : Z) : Z := fst (roundE b f ak) + 2 * (ak * dlZ b f + tolZ b f + peZ b f).
(** it is at most A + B ak *)
Definition AZ (b : bool) (f : fmt) : Z := match f with F32 => if b then 8 * 2 ^ 116 else 7 * 2 ^ 116 | F64 => if b then 6 * 2 ^ 100 else 5 * 2 ^ 87 end.
Definition SZ (b : bool) (f : fmt) : Z := match f with F32 => 4 * 2 ^ 116 | F64 => if b then 2 ^ 92 else 4 * 2 ^ 87 end.
(** checked on intervals [lo, hi] of |k| that cover 0 .. emax *)
Fixpoint his (fuel : nat) (lo : Z) : list Z := match fuel with O => [] | S n => let h := lo + lo / 6 in h :: his n (h + 1) end.
Fixpoint cover (chk : Z -> Z -> bool) (lo : Z) (l : list Z) : bool := match l with [] => true | h :: l => chk lo h && cover chk (h + 1) l end.
Lemma last_any (l : list Z) z d e : last (z :: l) d = last (z :: l) e.
Proof. revert z. induction l as [|y l IH]; intros z; [reflexivity|]. change (last (z :: y :: l) d) with (last (y :: l) d). change (last (z :: y :: l) e) with (last (y :: l) e). apply IH. Qed.
Lemma cover_ok chk l : forall lo a, cover chk lo l = true -> lo <= a <= last l (lo - 1) -> exists p q, p <= a <= q /\ chk p q = true.
Proof.
  induction l as [|h l IH]; intros lo a H Ha; cbn [last] in Ha; [lia|]. cbn [cover] in H. apply andb_prop in H. destruct H as [H1 H2].
  destruct (Z_le_gt_dec a h) as [L|G]. { exists lo, h. split; [lia|exact H1]. }
  apply (IH (h + 1) a H2). split; [lia|]. destruct l as [|z l]; [lia|]. rewrite (last_any l z _ (lo - 1)). apply Ha.
Qed.
Close Scope Z_scope.
