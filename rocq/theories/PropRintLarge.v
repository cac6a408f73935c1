(** C36: rint and nearbyint of doubles without SSE4.1, decided for every bit pattern. *)
From Coq Require Import ZifyBool ZifyNat Reals Lra.
From Flocq Require Import Core IEEE754.BinarySingleNaN IEEE754.Binary.
From Verif Require Import Base Cxx Spec X86Vec X86 X86Lemmas X86Proofs X86Masks X86Ops X86Shift Fp FpLemmas FpOps FKern FMath FMathProofs FNext PropX86 PropFloat
  FLane FManip FManipLanes FFields FScalbn FRoute FRouteProofs PropManip Cvt CvtProofs PropCvt Logb LogbProofs PropLogb Round RoundProofs RoundLanes RoundSem RoundVec PropRound RintLarge.
Set Implicit Arguments.
Local Open Scope nat_scope.
Local Notation bp := (bpow radix2).

(** The doubles that rint leaves alone although they are integers only by their size. A double beyond 2^52 is an integer j * 2^k with a
    53-bit significand j; |v| + 2^52 - 2^52, each step rounded, gives |v| back exactly for these. *)
Definition survives_2p52 (v : R) : Prop :=
  (Rabs v <= IZR (2 ^ 52))%R \/
  exists j k, Rabs v = (IZR j * bp k)%R /\ (2 ^ 52 <= j < 2 ^ 53)%Z /\ (0 <= k)%Z /\
    ((k <= 52)%Z /\ (Z.even j = true \/ (Rabs v + IZR (2 ^ 52) <= bp (k + 53))%R) \/
     k = 53%Z /\ Z.even j = true /\ j <> (2 ^ 52)%Z \/
     (54 <= k)%Z).

Lemma kept_real v j k : Rabs v = (IZR j * bp k)%R -> (0 <= k)%Z ->
  (kept j k <-> ((k <= 52)%Z /\ (Z.even j = true \/ (Rabs v + IZR (2 ^ 52) <= bp (k + 53))%R) \/ k = 53%Z /\ Z.even j = true /\ j <> (2 ^ 52)%Z \/ (54 <= k)%Z)).
Proof.
  intros Hv Hk. unfold kept. assert (Q : (k <= 52)%Z -> (j + 2 ^ (52 - k) <= 2 ^ 53)%Z <-> (Rabs v + IZR (2 ^ 52) <= bp (k + 53))%R); [|split; intros [[K [C|C]]|[C|C]]; auto; left; split; auto; right; apply Q; auto].
  intros K. rewrite Hv. pose proof (bpow_gt_0 radix2 k). replace (IZR (2 ^ 52)) with (IZR (2 ^ (52 - k)) * bp k)%R.
  2:{ change 2%Z with (radix_val radix2). rewrite !IZR_Zpower by lia. rewrite <- bpow_plus. f_equal. lia. }
  rewrite (Z.add_comm k), bpow_plus. change (bp 53) with (IZR (2 ^ 53)). rewrite <- Rmult_plus_distr_r, <- plus_IZR. split; intros C.
  - apply Rmult_le_compat_r; [lra|]. now apply IZR_le.
  - apply Rmult_le_reg_r in C; auto. now apply le_IZR.
Qed.
Lemma big_split m : word 64 m -> isfin F64 m = true -> fsign 64 m = false -> (IZR (2 ^ 52) < val F64 m)%R ->
  exists j k, val F64 m = (IZR j * bp k)%R /\ (2 ^ 52 <= j < 2 ^ 53)%Z /\ (0 <= k)%Z.
Proof.
  intros Wm Fm Sm B. pose proof (@val_sgnr F64 m Wm Fm) as V. change (fw F64) with 64%Z in V. rewrite Sm in V. cbn [sgnr] in V. set (q := fmag 64 m) in *.
  set (E := (q / 2 ^ 52)%Z). set (r := (q mod 2 ^ 52)%Z). assert (Hr : (0 <= r < 2 ^ 52)%Z) by (apply Z.mod_pos_bound; lia).
  assert (Eq : (E <> 0)%Z -> mval F64 q = (IZR (2 ^ 52 + r) * bp (E - 1075))%R).
  { intros L. unfold mval, msig, mex, mexp, mman. change (mw F64) with 52%Z. fold E r. assert (0 <= E)%Z. { apply Z.div_pos; [|lia]. apply fin_word with (f := F64). exact Wm. } replace (E =? 0)%Z with false by lia. rewrite Z.max_l by lia. rewrite (Z.add_comm r). replace (E + emin F64 - 1)%Z with (E - 1075)%Z by (cbn; lia). reflexivity. }
  assert (E0 : (E <> 0)%Z).
  { intros E0. rewrite V in B. unfold mval, msig, mex, mexp, mman in B. change (mw F64) with 52%Z in B. fold E r in B. rewrite E0 in B. cbn [Z.eqb] in B. cbn [Z.max Z.compare] in B.
    assert (bp (1 + emin F64 - 1) <= bp 0)%R by (apply bpow_le; cbn; lia). change (bp 0) with 1%R in H. pose proof (bpow_gt_0 radix2 (1 + emin F64 - 1)). assert (0 <= IZR r <= IZR (2 ^ 52))%R by (split; apply IZR_le; lia). nra. }
  specialize (Eq E0). exists (2 ^ 52 + r)%Z, (E - 1075)%Z. split; [congruence|]. split; [lia|]. rewrite V, Eq in B. destruct (Z_lt_le_dec (E - 1075) 0) as [L|L]; auto. exfalso.
  assert (bp (E - 1075) <= bp (- 1))%R by (apply bpow_le; lia). change (bp (- 1)) with (/ 2)%R in H. pose proof (bpow_gt_0 radix2 (E - 1075)). assert (0 <= IZR (2 ^ 52 + r) <= 2 * IZR (2 ^ 52))%R by (rewrite <- mult_IZR; split; apply IZR_le; lia). nra.
Qed.

Theorem C36_rint_double_iff : forall nn X x, xty_ok X -> is_int (xT X) = false -> esz (xT X) = 8 -> is256 X = false -> sse41 (xc X) = false -> shaped X x ->
  let P := fun x y => rounds_to F64 ZnearestE x y <-> (isfin F64 x = true -> survives_2p52 (val F64 x)) in
  each1 X x (x_rint X nn x) P /\ each1 X x (x_nearbyint X nn x) P.
Proof.
  intros nn X x HX HF E8 E2 E4 Hx P. cut (each1 X x (x_rint X nn x) P). { intros H. split; exact H. } subst P.
  assert (E : native_round X = false) by (unfold native_round; now rewrite E2, E4). assert (Ef : xf X = F64) by (destruct (xT_float HX HF) as [(Q & _) | (_ & Q & _)]; [congruence|auto]).
  apply x_rint_each; auto. intros v Hv. rewrite Ef in Hv. unfold rint1. rewrite E, E8, (xw_fw HX HF), Ef. cbn [Nat.eqb]. cbv zeta.
  pose proof (@rint_sse2 F64 nn v Hv) as Q. unfold rint_core in Q. cbv zeta in Q.
  destruct (isfin F64 v) eqn:Fv; [|split; [discriminate|intros _; apply Q; auto]].
  destruct (Rle_lt_dec (Rabs (val F64 v)) (IZR (2 ^ 52))) as [S|S]. { split; [intros _ _; now left|intros _; apply Q; auto]. }
  clear Q. rewrite (sbit_lxor Hv). destruct (mag_fin Hv Fv) as (Fm & Vm & Sm). assert (Wm := fmag_word (f := F64) v). set (m := fmag (fw F64) v) in *.
  assert (Vx := val_sgnr Hv Fv). fold m in Vx. rewrite <- Vm in Vx. pose proof (mval_nonneg (f := F64) m) as Nn. rewrite <- Vm in Nn. assert (Am : Rabs (val F64 v) = val F64 m) by (rewrite Vx; now apply sgnr_abs).
  destruct (@offset_ok F64) as (Wo & Fo & Vo & So). rewrite (fle_val Wo Wm Fo Fm), Vo. change (bpow radix2 (mw F64)) with (IZR (2 ^ 52)). rewrite Rle_bool_true by lra. fold (@rint_core F64 nn m).
  assert (IFF : forall j k, val F64 m = (IZR j * bp k)%R -> (2 ^ 52 <= j < 2 ^ 53)%Z -> (0 <= k)%Z -> (rounds_to F64 ZnearestE v (Z.lor (@rint_core F64 nn m) (sbit F64 (fsign (fw F64) v))) <-> kept j k)).
  { intros j k Vj Hj Hk. destruct (@rint_core_large nn m j k Wm Fm Vj Hj Hk) as (R1 & R2 & R3 & R4). destruct (set_sign (f := F64) (fsign (fw F64) v) R1 R2 R3) as (Z1 & Z2 & Z3 & Z4). set (z := Z.lor _ _) in *.
    unfold rounds_to. rewrite (fin_nan _ Fv), Fv, Z3. assert (N : IZR (ZnearestE (val F64 v)) = sgnr (fsign (fw F64) v) (val F64 m)).
    { rewrite Vx. assert (I : exists n, val F64 m = IZR n). { exists (j * 2 ^ k)%Z. rewrite Vj, mult_IZR. change 2%Z with (radix_val radix2). now rewrite IZR_Zpower. } destruct I as [n ->]. rewrite sgnr_IZR, near_int. reflexivity. }
    rewrite N. assert (INJ : sgnr (fsign (fw F64) v) (val F64 (@rint_core F64 nn m)) = sgnr (fsign (fw F64) v) (val F64 m) <-> val F64 (@rint_core F64 nn m) = val F64 m). { split; [|intros ->; auto]. destruct (fsign (fw F64) v); cbn [sgnr]; intros; lra. }
    rewrite <- R4, <- INJ. tauto. }
  split.
  - intros R _. right. destruct (big_split Wm Fm Sm ltac:(lra)) as (j & k & Vj & Hj & Hk). rewrite (IFF j k Vj Hj Hk) in R. exists j, k. rewrite <- Am in Vj. split; auto. split; auto. split; auto. now apply kept_real.
  - intros H. destruct (H eq_refl) as [C|(j & k & Vj & Hj & Hk & C)]; [lra|]. rewrite Am in Vj. apply (IFF j k Vj Hj Hk). rewrite <- Am in Vj. exact (proj2 (kept_real _ _ Vj Hk) C).
Qed.
Print Assumptions C36_rint_double_iff.
(** 2^52 + 1 comes back as 2^52, 2^52 + 2 and 2^106 unchanged, 2^105 as 2^105 - 2^52 *)
Definition d2x4 : xty := {| xc := sse2; xT := {| esz := 8; ek := KFloat |}; xvs := 16; xN := 4 |}.
Example C36_rint_double_iff_case : xty_ok d2x4 /\ sse41 (xc d2x4) = false /\
  x_rint d2x4 nans0 [[0x4330000000000001; 0x4330000000000002]; [0x4690000000000000; 0x4680000000000000]]%Z = Ok [[0x4330000000000000; 0x4330000000000002]; [0x4690000000000000; 0x467fffffffffffff]]%Z.
Proof. split; [xok|split; [reflexivity|vm_compute; reflexivity]]. Qed.
