(** C47: double to uint64, decided. *)
From Coq Require Import ZifyBool ZifyNat Reals Lra.
From Flocq Require Import Core IEEE754.BinarySingleNaN IEEE754.Binary.
From Verif Require Import Base Cxx Spec X86Vec X86 X86Lemmas X86Proofs X86Masks X86Ops Fp FpLemmas FpOps FKern FMath FMathProofs FLane FFields FManip FManipLanes PropX86 PropFloat PropManip RoundProofs RoundSem Round RoundVec FArith PropArith PropIeee FErr Cvt CvtProofs PropCvt PropRound HypSplit HypZero RintLarge CvtLarge PropCvtLarge CvtHalf PropCvtHalf.
Set Implicit Arguments.
Local Open Scope Z_scope.
Local Notation bp := (bpow radix2).

Lemma c52 : word 64 exp52 /\ isfin F64 exp52 = true /\ val F64 exp52 = 4503599627370496%R.
Proof. repeat split; try discriminate; try reflexivity. change exp52 with (join F64 false 0x433 0). rewrite join_val by (cbn; lia). cbn. lra. Qed.
Lemma sum52 nn x : word 64 x -> isfin F64 x = true -> (-1 <= val F64 x <= 9007199254740992)%R ->
  let b := fadd nn F64 x exp52 in word 64 b /\ isfin F64 b = true /\ val F64 b = rnd F64 (val F64 x + 4503599627370496).
Proof.
  intros Wx Fx H b. destruct c52 as (Wc & Fc & Vc). pose proof (@addc nn x exp52 (conj Wx Fx) (conj Wc Fc)) as C. rewrite Vc in C. split; [exact (@fadd_word nn F64 _ _)|]. apply (@cr_lt F64 _ _ 65 C); [cbn; lia|].
  change (bp 65) with 36893488147419103232%R. apply Rabs_le. lra.
Qed.
(** the double of a given positive value *)
Lemma pos_word b c : word 64 b -> isfin F64 b = true -> word 64 c -> isfin F64 c = true -> fsign 64 c = false -> (0 < val F64 c)%R -> val F64 b = val F64 c -> b = c.
Proof.
  intros Wb Fb Wc Fc Sc P V. apply (@bits_inj F64); auto. change (fw F64) with 64 in *. rewrite Sc. pose proof (@val_sgnr F64 b Wb Fb) as VS. change (fw F64) with 64 in VS. destruct (fsign 64 b); auto. exfalso. cbn [sgnr] in VS. pose proof (@mval_nonneg F64 (fmag 64 b)). lra.
Qed.
Lemma fmt64 k j : Z.abs k <= 2 ^ 53 -> -1000 <= j -> generic_format radix2 (SpecFloat.fexp 53 1024) (IZR k * bp j).
Proof. intros H1 H2. apply (@RoundProofs.fmt_ok F64); [exact H1|]. cbn. lia. Qed.
Lemma near64 s g : generic_format radix2 (SpecFloat.fexp 53 1024) g -> (Rabs (rnd F64 s - s) <= Rabs (g - s))%R.
Proof. intros G. destruct (@round_N_pt radix2 (SpecFloat.fexp (prec F64) (emax F64)) _ (fun x => negb (Z.even x)) s) as [_ N]. exact (N _ G). Qed.
Definition lo52 : Z := 0x432fffffffffffff.   (* 2^52 - 1/2 *)
Lemma lo52_ok : word 64 lo52 /\ isfin F64 lo52 = true /\ fsign 64 lo52 = false /\ val F64 lo52 = (4503599627370496 - / 2)%R.
Proof. repeat split; try discriminate; try reflexivity. change lo52 with (join F64 false 0x432 (2 ^ 52 - 1)). rewrite join_val by (cbn; lia). cbn. lra. Qed.
Lemma u_eq b : b = exp52 -> Z.lxor b exp52 = 0. Proof. intros ->. reflexivity. Qed.
Lemma u_lo : Z.lxor lo52 exp52 <> 0. Proof. vm_compute. discriminate. Qed.

Lemma u64_neg nn x : word 64 x -> isfin F64 x = true -> (- / 2 <= val F64 x < 0)%R -> (f64_u64l nn x = 0 <-> (- / 4 <= val F64 x)%R).
Proof.
  intros Wx Fx H. destruct (@sum52 nn x Wx Fx ltac:(lra)) as (Wb & Fb & Vb). unfold f64_u64l. set (b := fadd nn F64 x exp52) in *. clearbody b. destruct c52 as (Wc & Fc & Vc). destruct lo52_ok as (Wl & Fl & Sl & Vl).
  assert (G0 : generic_format radix2 (SpecFloat.fexp 53 1024) 4503599627370496) by (replace 4503599627370496%R with (IZR (2 ^ 52) * bp 0)%R by (cbn; ring); apply fmt64; lia).
  assert (G1 : generic_format radix2 (SpecFloat.fexp 53 1024) (4503599627370496 - / 2)). { replace (4503599627370496 - / 2)%R with (IZR (2 ^ 53 - 1) * bp (-1))%R by (change (bp (-1)) with (/ 2)%R; rewrite minus_IZR; change (IZR (2 ^ 53)) with 9007199254740992%R; lra). apply fmt64; lia. }
  set (s := (val F64 x + 4503599627370496)%R) in *.
  assert (U : (4503599627370496 - / 2 <= val F64 b <= 4503599627370496)%R).
  { rewrite Vb. split; [apply (@RoundSem.rnd_ge_fmt F64); [exact G1|unfold s; lra]|apply (@RoundSem.rnd_le_fmt F64); [exact G0|unfold s; lra]]. }
  destruct (@mult_of (val F64 b) 51 (@fmt_val F64 b)) as [h Eh]. { change (bp 51) with 2251799813685248%R. rewrite Rabs_pos_eq; lra. } change (bp (51 - 52)) with (/ 2)%R in Eh.
  assert (D : h = 2 ^ 53 \/ h = 2 ^ 53 - 1). { assert (9007199254740991 <= h <= 9007199254740992); [|lia]. split; apply le_IZR; lra. }
  assert (B : val F64 b = 4503599627370496%R \/ val F64 b = (4503599627370496 - / 2)%R). { destruct D as [-> | ->]; rewrite Eh; [left; change (IZR (2 ^ 53)) with 9007199254740992%R; lra|right; rewrite minus_IZR; change (IZR (2 ^ 53)) with 9007199254740992%R; lra]. }
  pose proof (@near64 s _ G0) as N0. pose proof (@near64 s _ G1) as N1. rewrite <- Vb in N0, N1.
  assert (S0 : (Rabs (4503599627370496 - s) = - val F64 x)%R) by (unfold s; rewrite Rabs_pos_eq; lra). assert (S1 : (Rabs (4503599627370496 - / 2 - s) = val F64 x + / 2)%R) by (unfold s; rewrite Rabs_left1; lra). rewrite S0 in N0. rewrite S1 in N1.
  destruct B as [B|B].
  - assert (E : b = exp52) by (apply pos_word; auto; [lra|congruence]). rewrite E. split; [intros _|intros _; reflexivity]. rewrite B, S0 in N1. lra.
  - assert (E : b = lo52) by (apply pos_word; auto; [lra|congruence]). rewrite E. split; [intros Q; exfalso; exact (u_lo Q)|]. intros Q. exfalso. rewrite B, S1 in N0. assert (X4 : val F64 x = (- / 4)%R) by lra.
    (* the tie goes to the even significand *)
    assert (XE : x = 0xbfd0000000000000). { assert (W4 : word 64 0xbfd0000000000000) by (split; [discriminate|reflexivity]). assert (V4 : val F64 0xbfd0000000000000 = (- / 4)%R). { change 0xbfd0000000000000 with (join F64 true 0x3fd 0). rewrite join_val by (cbn; lia). cbn. lra. }
      apply (@bits_inj F64); auto; [congruence|]. change (fsign (fw F64) 0xbfd0000000000000) with true. pose proof (@val_sgnr F64 x Wx Fx) as VS. destruct (fsign (fw F64) x); auto. exfalso. cbn [sgnr] in VS. pose proof (@mval_nonneg F64 (fmag (fw F64) x)). lra. }
    assert (R : forall k, fadd k F64 0xbfd0000000000000 exp52 = exp52) by (clear; intros k; destruct k; vm_compute; reflexivity).
    assert (VV : val F64 b = val F64 exp52); [|lra]. rewrite Vb. destruct (@sum52 nn x Wx Fx ltac:(lra)) as (_ & _ & V'). fold s in V'. rewrite <- V', XE, R. reflexivity.
Qed.
Lemma u64_decided nn x : word 64 x -> isfin F64 x = true -> 0 <= ZnearestE (val F64 x) < 2 ^ 64 ->
  (f64_u64l nn x = ZnearestE (val F64 x) <-> (- / 4 <= val F64 x < IZR (2 ^ 52) - / 2)%R).
Proof.
  intros Wx Fx R. assert (C52 : IZR (2 ^ 52) = 4503599627370496%R) by reflexivity. rewrite C52. pose proof (near_in (val F64 x)) as NI. assert (N0 : (0 <= IZR (ZnearestE (val F64 x)))%R) by (apply IZR_le; lia).
  destruct (Rlt_le_dec (val F64 x) 0) as [P|P].
  { assert (E : ZnearestE (val F64 x) = 0). { assert (ZnearestE (val F64 x) <= ZnearestE (IZR 0)) by (apply Zrnd_le; [apply valid_rnd_N|lra]). rewrite near_int in H. lia. } rewrite E in NI.
    rewrite E, (@u64_neg nn x Wx Fx) by lra. split; lra. }
  destruct (Rlt_le_dec (val F64 x) (4503599627370496 - / 2)) as [L|L]. { split; [intros _; lra|]. intros _. apply (f64_u64l_ok nn Wx Fx). rewrite C52. lra. }
  split; [|lra]. intros Q. exfalso. destruct (Rlt_le_dec (val F64 x) 4503599627370496) as [H|H].
  - destruct (@mult_of (val F64 x) 51 (@fmt_val F64 x)) as [h Eh]. { change (bp 51) with 2251799813685248%R. rewrite Rabs_pos_eq; lra. } change (bp (51 - 52)) with (/ 2)%R in Eh.
    assert (h = 9007199254740991). { assert (9007199254740991 <= h < 9007199254740992); [|lia]. split; [apply le_IZR|apply lt_IZR]; lra. } subst h. destruct lo52_ok as (Wl & Fl & Sl & Vl).
    assert (E : x = lo52) by (apply pos_word; auto; lra). rewrite E in Q. rewrite Vl in Q. replace (4503599627370496 - / 2)%R with (IZR (2 ^ 52 - 1) + / 2)%R in Q by (rewrite minus_IZR, C52; lra). rewrite near_half in Q. revert Q. clear. destruct nn; vm_compute; discriminate.
  - destruct (@mult_of (val F64 x) 52 (@fmt_val F64 x)) as [n En]. { change (bp 52) with 4503599627370496%R. rewrite Rabs_pos_eq; lra. } assert (Vx : val F64 x = IZR n) by (rewrite En; cbn; ring).
    rewrite Vx, near_int in Q, R. apply (@u64_iff nn x n Wx Fx Vx R) in Q. apply IZR_lt in Q. lra.
Qed.

(** A finite double whose nearest integer is a uint64 is converted to that integer exactly when -1/4 <= x < 2^52 - 1/2. *)
Theorem C47_double_to_uint64_decided : forall X (HX : xty_ok X), esz (xT X) = 8%nat -> forall nn,
  let P := fun x y => word 64 y /\ (isfin F64 x = true -> 0 <= ZnearestE (val F64 x) < 2 ^ 64 ->
    (y = ZnearestE (val F64 x) <-> (- / 4 <= val F64 x < IZR (2 ^ 52) - / 2)%R)) in
  load_gives X (cvt_of_f X false nn) P /\ store_gives X (cvt_of_f X false nn) P.
Proof.
  intros X HX E nn P. apply both with (k := f64_u64l nn); auto.
  - intros v Hv. apply k_f64_u64; auto.
  - intros x Hx. rewrite (@xw8 X E) in *. split; [apply f64_u64l_word|]. split; [apply f64_u64l_word|]. intros Fx R. now apply u64_decided.
Qed.
Print Assumptions C47_double_to_uint64_decided.
(** 2^52 - 1/2 gives 7 * 2^52, -1/2 gives 2^53 - 1 instead of 0, -1/4 and -1/8 give 0 *)
Example C47_double_to_uint64_decided_case : let D := d2 sse4 in xty_ok D /\
  x_copy_to_cvt D (cvt_of_f D false nans0) Ok [[0x432fffffffffffff; 0xbfe0000000000000]]%Z [9; 9]%Z 0 = Ok [7 * 2 ^ 52; 2 ^ 53 - 1]%Z /\
  x_copy_to_cvt D (cvt_of_f D false nans0) Ok [[0xbfd0000000000000; 0xbfc0000000000000]]%Z [9; 9]%Z 0 = Ok [0; 0]%Z.
Proof. intros D. split; [xok|vm_compute; split; reflexivity]. Qed.
