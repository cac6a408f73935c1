(** C58, C59, C60: how accurate atan, asin and acos are. *)
From Coq Require Import ZifyBool ZifyNat Reals Ratan Lra.
From Flocq Require Import Core IEEE754.BinarySingleNaN IEEE754.Binary.
From Verif Require Import Base Cxx Spec X86Vec X86 X86Lemmas X86Proofs X86Masks X86Ops X86Shift Fp FpLemmas FpOps FKern FMath FMathProofs FLane FFields FManip FManipLanes LogbProofs
  PropX86 PropFloat PropManip Cvt CvtProofs PropCvt Round RoundProofs RoundLanes RoundSem PropRound FArith PropArith FCvt Hypot HypotProofs HypotSem PropHypot PropIeee LogTab Log LogProofs PropLog TrigTab Trig TrigProofs PropTrig FErr IvPoly PiBound SinPoly SinEval SinRed SinAcc PropSin PropTrigSpec ArcSer RatPoly ArcKern ArcNum ArcAtan ArcAsin.
Set Implicit Arguments.
Open Scope Z_scope.

(** *** Specification *)
(** std::numeric_limits<T>::epsilon() *)
Definition machine_eps (f : fmt) : R := match f with F32 => bpow radix2 (-23) | F64 => bpow radix2 (-52) end.
(** [y] is a finite number within a relative error of [k] epsilons of the real number [r]; for r = 0 it is a zero *)
Definition rel_close (f : fmt) (k r : R) (y : Z) : Prop := isfin f y = true /\ (Rabs (val f y - r) <= k * machine_eps f * Rabs r)%R.

Lemma eps_u f : machine_eps f = (2 * bpow radix2 (- prec f))%R.
Proof. destruct f; cbn; lra. Qed.
Lemma close_of f r y : within f (16 * bpow radix2 (- prec f) * Rabs r) r y -> rel_close f 8 r y.
Proof. intros [F E]. split; auto. rewrite eps_u. lra. Qed.
Open Scope R_scope.
(** atan of every finite number, on every build *)
Theorem C58_atan_accuracy : forall nn X fm a, xty_ok X -> is_int (xT X) = false -> shaped X a -> let f := xf X in
  each1 X a (x_atan X fm nn a) (fun x y => isfin f x = true -> rel_close f 8 (atan (val f x)) y).
Proof. intros nn X fm a HX HF Ha f. apply e_atan; auto. intros x Hx Fx. apply close_of. now apply atan_err. Qed.
Print Assumptions C58_atan_accuracy.
(** asin of every number in [-1, 1] *)
Theorem C59_asin_accuracy : forall nn X fm he a, xty_ok X -> is_int (xT X) = false -> shaped X a -> let f := xf X in
  each1 X a (x_asin X fm he nn a) (fun x y => isfin f x = true -> Rabs (val f x) <= 1 -> rel_close f 8 (asin (val f x)) y).
Proof. intros nn X fm he a HX HF Ha f. apply e_asin; auto. intros x Hx Fx Bx. apply close_of. now apply asin_err. Qed.
Print Assumptions C59_asin_accuracy.
(** acos of every number in [-1, 1] *)
Theorem C60_acos_accuracy : forall nn X fm he a, xty_ok X -> is_int (xT X) = false -> shaped X a -> let f := xf X in
  each1 X a (x_acos X fm he nn a) (fun x y => isfin f x = true -> Rabs (val f x) <= 1 -> rel_close f 8 (acos (val f x)) y).
Proof.
  intros nn X fm he a HX HF Ha f. apply e_acos; auto. intros x Hx Fx Bx. apply close_of. destruct (acos_bound (val f x)) as [A _]. rewrite Rabs_pos_eq by auto. now apply acos_err.
Qed.
Print Assumptions C60_acos_accuracy.
Open Scope Z_scope.
(** one step of each branch; the doubles are 0.75 and 2^-1074 *)
Definition arc_in : list vec := [[0x3f800000; 0xc0800000; 0x3e800000; 0x00000001]].
Example C58_case : xty_ok (f4 haswell) /\ is_int (xT (f4 haswell)) = false /\ shaped (f4 haswell) arc_in /\ x_atan (f4 haswell) true nans0 arc_in = Ok [[0x3f490fdb; 0xbfa9b465; 0x3e7adbb0; 0x00000001]] /\ rel_close F32 8 (atan (-4)) 0xbfa9b465.
Proof.
  assert (HO : xty_ok (f4 haswell)) by xok.   assert (S : shaped (f4 haswell) arc_in) by shp. split; [exact HO|]. split; [reflexivity|]. split; [exact S|]. assert (E2 : x_atan (f4 haswell) true nans0 arc_in = Ok [[0x3f490fdb; 0xbfa9b465; 0x3e7adbb0; 0x00000001]]) by (vm_compute; reflexivity). split; [exact E2|].
  pose proof (@C58_atan_accuracy nans0 (f4 haswell) true arc_in HO eq_refl S) as HH. unfold each1 in HH. destruct HH as (u & E & _ & H). rewrite E2 in E. injection E as <-. destruct (H 1%nat 0xc0800000 eq_refl) as (y & Ey & Q). cbn in Ey. injection Ey as <-.
  assert (V : val F32 0xc0800000 = (-4)%R). { rewrite (@val_cst F32 0xc0800000 (-8388608) (-21)) by (clear; try reflexivity; unfold word; cbn [fw]; lia). change (bpow radix2 (-21)) with (/ 2097152)%R. field. }
  change (xf (f4 haswell)) with F32 in Q. rewrite V in Q. apply Q. reflexivity.
Qed.
Definition arc_in2 : list vec := [[0x3fe8000000000000; 0x0000000000000001]].
Example C59_case : xty_ok (d2 sse2) /\ is_int (xT (d2 sse2)) = false /\ shaped (d2 sse2) arc_in2 /\ x_asin (d2 sse2) false false nans0 arc_in2 = Ok [[0x3feb235315c680dc; 1]] /\ rel_close F64 8 (asin (3 / 4)) 0x3feb235315c680dc.
Proof.
  assert (HO : xty_ok (d2 sse2)) by xok.   assert (S : shaped (d2 sse2) arc_in2) by shp. split; [exact HO|]. split; [reflexivity|]. split; [exact S|]. assert (E2 : x_asin (d2 sse2) false false nans0 arc_in2 = Ok [[0x3feb235315c680dc; 1]]) by (vm_compute; reflexivity). split; [exact E2|].
  pose proof (@C59_asin_accuracy nans0 (d2 sse2) false false arc_in2 HO eq_refl S) as HH. unfold each1 in HH. destruct HH as (u & E & _ & H). rewrite E2 in E. injection E as <-. destruct (H 0%nat 0x3fe8000000000000 eq_refl) as (y & Ey & Q). cbn in Ey. injection Ey as <-.
  assert (V : val F64 0x3fe8000000000000 = (3 / 4)%R). { rewrite (@val_cst F64 0x3fe8000000000000 6755399441055744 (-53)) by (clear; try reflexivity; unfold word; cbn [fw]; lia). change (bpow radix2 (-53)) with (/ 9007199254740992)%R. field. }
  change (xf (d2 sse2)) with F64 in Q. rewrite V in Q. apply Q; [reflexivity|]. rewrite Rabs_pos_eq; lra.
Qed.
Example C60_case : xty_ok (d2 sse2) /\ is_int (xT (d2 sse2)) = false /\ shaped (d2 sse2) arc_in2 /\ x_acos (d2 sse2) false false nans0 arc_in2 = Ok [[0x3fe720a392c1d955; 0x3ff921fb54442d18]] /\ rel_close F64 8 (acos (3 / 4)) 0x3fe720a392c1d955.
Proof.
  assert (HO : xty_ok (d2 sse2)) by xok.   assert (S : shaped (d2 sse2) arc_in2) by shp. split; [exact HO|]. split; [reflexivity|]. split; [exact S|]. assert (E2 : x_acos (d2 sse2) false false nans0 arc_in2 = Ok [[0x3fe720a392c1d955; 0x3ff921fb54442d18]]) by (vm_compute; reflexivity). split; [exact E2|].
  pose proof (@C60_acos_accuracy nans0 (d2 sse2) false false arc_in2 HO eq_refl S) as HH. unfold each1 in HH. destruct HH as (u & E & _ & H). rewrite E2 in E. injection E as <-. destruct (H 0%nat 0x3fe8000000000000 eq_refl) as (y & Ey & Q). cbn in Ey. injection Ey as <-.
  assert (V : val F64 0x3fe8000000000000 = (3 / 4)%R). { rewrite (@val_cst F64 0x3fe8000000000000 6755399441055744 (-53)) by (clear; try reflexivity; unfold word; cbn [fw]; lia). change (bpow radix2 (-53)) with (/ 9007199254740992)%R. field. }
  change (xf (d2 sse2)) with F64 in Q. rewrite V in Q. apply Q; [reflexivity|]. rewrite Rabs_pos_eq; lra.
Qed.
Close Scope Z_scope.
