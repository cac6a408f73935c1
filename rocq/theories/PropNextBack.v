(** C29: one step of nextafter and one step back. *)
From Coq Require Import ZifyBool ZifyNat Reals Lra.
From Verif Require Import Base Cxx Spec X86Vec X86 X86Lemmas X86Proofs X86Masks X86Ops Fp FpLemmas FpOps FMath FMathProofs FNext PropX86 PropFloat.
Set Implicit Arguments.
Local Open Scope nat_scope.

(** nextafter(nextafter(a, b), a) equals a in every element (bit for bit when a and b compare equal), whatever the direction, sizes of the
    numbers, zeros, subnormals and infinities; a NaN in a or b gives a NaN. *)
Theorem C29_step_and_back : forall X F a b, xty_ok X -> is_int (xT X) = false -> shaped X a -> shaped X b ->
  each2 X a b (bind (x_nextafter X F a b) (fun c => x_nextafter X F c a)) (fun x y z =>
    match fcmp (xf X) x y with None => isnanb (xf X) z = true | Some Eq => z = x | Some _ => fcmp (xf X) z x = Some Eq end).
Proof.
  intros X F a b HX HF Ha Hb. destruct (C29_nextafter F HX HF Ha Hb) as (c & E & Sc & R). destruct (C29_nextafter F HX HF Sc Ha) as (d & E' & Sd & R'). exists d. rewrite E. cbn [bind]. split; auto. split; auto.
  intros i x y Hx Hy. destruct (R i x y Hx Hy) as (u & Hu & P). destruct (R' i u x Hu Hx) as (z & Hz & Q). exists z. split; auto.
  pose proof (el_word _ Ha Hx) as Wx. pose proof (el_word _ Hb Hy) as Wy. pose proof (el_word _ Sc Hu) as Wu. pose proof (el_word _ Sd Hz) as Wz. rewrite (xw_fw HX HF) in *. set (f := xf X) in *. clearbody f. clear -Wx Wy Wu Wz P Q.
  unfold next_ok in P, Q.
  assert (SW : forall p q, word (fw f) p -> word (fw f) q -> fcmp f q p = match fcmp f p q with None => None | Some k => Some (CompOpp k) end).
  { intros p q Hp Hq. rewrite (fcmp_spec Hp Hq), (fcmp_spec Hq Hp). rewrite orb_comm. destruct (_ || _); auto. now rewrite Z.compare_antisym. }
  assert (NN : fcmp f u x = None -> isnanb f u = true \/ isnanb f x = true). { intros H. rewrite (fcmp_spec Wu Wx) in H. rewrite (isnan_spec Wu), (isnan_spec Wx). destruct (fnan (fw f) u), (fnan (fw f) x); auto. cbn in H. discriminate. }
  assert (NI : isnanb f u = true -> fcmp f u x = None). { intros H. rewrite (fcmp_spec Wu Wx), <- (isnan_spec Wu), H. reflexivity. }
  destruct (fcmp f x y) as [[| |]|] eqn:C.
  - subst u. rewrite (SW x y Wx Wy), C in Q. exact Q.
  - destruct P as (P1 & P2 & P3). rewrite (SW x u Wx Wu), P1 in Q. cbn [CompOpp] in Q. destruct Q as (Q1 & [Q2|Q2] & Q3); auto. exfalso. apply (P3 z Wz).
    + rewrite (SW z x Wz Wx), Q2. reflexivity.
    + rewrite (SW u z Wu Wz), Q1. reflexivity.
  - destruct P as (P1 & P2 & P3). rewrite (SW x u Wx Wu), P1 in Q. cbn [CompOpp] in Q. destruct Q as (Q1 & [Q2|Q2] & Q3); auto. exfalso. apply (P3 z Wz).
    + rewrite (SW z x Wz Wx), Q2. reflexivity.
    + rewrite (SW u z Wu Wz), Q1. reflexivity.
  - rewrite (NI P) in Q. exact Q.
Qed.
Print Assumptions C29_step_and_back.
(** 1 up and back; the least positive number down and back; infinity down and back; towards an equal number *)
Example C29_step_and_back_case : xty_ok f32x5 /\
  bind (x_nextafter f32x5 (ieee nans0) [[0x3f800000; 1; 0x7f800000; 0]; [0x7f7fffff; 0; 0; 0]]%Z [[0x40000000; 0; 0; 0x80000000]; [0x7f800000; 0; 0; 0]]%Z)
    (fun c => x_nextafter f32x5 (ieee nans0) c [[0x3f800000; 1; 0x7f800000; 0]; [0x7f7fffff; 0; 0; 0]]%Z) = Ok [[0x3f800000; 1; 0x7f800000; 0]; [0x7f7fffff; 0; 0; 0]]%Z.
Proof. split; [xok|vm_compute; reflexivity]. Qed.
