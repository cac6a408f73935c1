(** C71: laws between the rounding functions. *)
From Coq Require Import ZifyBool ZifyNat Reals Lra.
From Flocq Require Import Core IEEE754.BinarySingleNaN IEEE754.Binary.
From Verif Require Import Base Cxx Spec X86Vec X86 X86Lemmas X86Proofs X86Masks X86Ops X86Shift Fp FpLemmas FpOps FKern FMath FMathProofs FNext PropX86 PropFloat
  FLane FManip FManipLanes FFields FScalbn FRoute FRouteProofs PropManip Cvt CvtProofs PropCvt Logb LogbProofs PropLogb Round RoundProofs RoundLanes RoundSem RoundVec PropRound.
Set Implicit Arguments.
Local Open Scope nat_scope.

(** floor, ceil, trunc, rint and nearbyint of a vector *)
Inductive rounding := RFloor | RCeil | RTrunc | RRint | RNearbyint.
Definition call (k : rounding) (X : xty) (nn : nans) (x : list vec) : res (list vec) :=
  match k with RFloor => x_floor X nn x | RCeil => x_ceil X nn x | RTrunc => x_trunc X nn x | RRint => x_rint X nn x | RNearbyint => x_nearbyint X nn x end.
(** floor and ceil mirror each other; the others are odd *)
Definition mirror (k : rounding) : rounding := match k with RFloor => RCeil | RCeil => RFloor | k => k end.
(** the same bit pattern, or both NaN *)
Definition same_fp (f : fmt) (a b : Z) : Prop := if isnanb f a then isnanb f b = true else b = a.

Definition zfun (k : rounding) : R -> Z := match k with RFloor => Zfloor | RCeil => Zceil | RTrunc => Ztrunc | _ => ZnearestE end.

Lemma call_ok nn X x k : xty_ok X -> is_int (xT X) = false -> is256 X = true \/ sse41 (xc X) = true -> shaped X x -> each1 X x (call k X nn x) (rounds_to (xf X) (zfun k)).
Proof.
  intros HX HF N Hx. destruct (C38_native_partial nn HX HF N Hx) as (A & B & C). destruct (C36_rint_partial nn HX HF Hx) as (D & E).
  assert (W : forall r (P : Z -> Z -> Prop), each1 X x r (fun x y => (esz (xT X) = 4 \/ is256 X = true \/ sse41 (xc X) = true \/ isfin (xf X) x = false \/ (Rabs (val (xf X) x) <= IZR (2 ^ 52))%R) -> P x y) -> each1 X x r P).
  { intros r P (v & Q1 & Q2 & Q3). exists v. split; auto. split; auto. intros i xi Hi. destruct (Q3 i xi Hi) as (y & Y1 & Y2). exists y. split; auto. apply Y2. tauto. }
  destruct k; auto; apply W; assumption.
Qed.

Lemma zfun_IZR k n : zfun k (IZR n) = n.
Proof. destruct k; cbn [zfun]; auto using Zfloor_IZR, Zceil_IZR, Ztrunc_IZR, Zrnd_IZR. all: apply (@Zrnd_IZR ZnearestE (valid_rnd_N _)). Qed.
Lemma zfun_le k a b : (a <= b)%R -> (zfun k a <= zfun k b)%Z.
Proof. intros H. destruct k; cbn [zfun]; [apply Zfloor_le|apply Zceil_le|apply Ztrunc_le|apply (@Zrnd_le ZnearestE (valid_rnd_N _))|apply (@Zrnd_le ZnearestE (valid_rnd_N _))]; auto. Qed.
Lemma zfun_opp k a : (zfun k (- a) = - zfun (mirror k) a)%Z.
Proof.
  destruct k; cbn [zfun mirror].
  - unfold Zceil. lia.
  - unfold Zceil. rewrite Ropp_involutive. reflexivity.
  - apply Ztrunc_opp.
  - rewrite Znearest_opp. f_equal. unfold Znearest. destruct Rcompare; auto. replace (negb (negb (Z.even (- (Zfloor a + 1))))) with (negb (Z.even (Zfloor a))); auto.
    rewrite negb_involutive, Z.even_opp, Z.even_add. destruct (Z.even _); reflexivity.
  - rewrite Znearest_opp. f_equal. unfold Znearest. destruct Rcompare; auto. replace (negb (negb (Z.even (- (Zfloor a + 1))))) with (negb (Z.even (Zfloor a))); auto.
    rewrite negb_involutive, Z.even_opp, Z.even_add. destruct (Z.even _); reflexivity.
Qed.

(** Rounding a rounded vector, by the same or any other of the functions, changes nothing. *)
Theorem C71_rounding_twice_partial : forall nn X x j k, xty_ok X -> is_int (xT X) = false -> is256 X = true \/ sse41 (xc X) = true -> shaped X x ->
  exists y z, call j X nn x = Ok y /\ call k X nn y = Ok z /\ shaped X y /\ shaped X z /\
    forall i yi, nth_error (elems X y) i = Some yi -> exists zi, nth_error (elems X z) i = Some zi /\ same_fp (xf X) yi zi.
Proof.
  intros nn X x j k HX HF N Hx. destruct (call_ok nn j HX HF N Hx) as (y & Ey & Sy & Ry). destruct (call_ok nn k HX HF N Sy) as (z & Ez & Sz & Rz).
  exists y, z. do 4 (split; auto). intros i yi Hi. destruct (Rz i yi Hi) as (zi & Hz & D). exists zi. split; auto.
  pose proof (el_word _ Sy Hi) as Wy. pose proof (el_word _ Sz Hz) as Wz. rewrite (xw_fw HX HF) in Wy, Wz. unfold rounds_to in D. unfold same_fp. destruct (isnanb (xf X) yi) eqn:Ny; auto. destruct (isfin (xf X) yi) eqn:Fy; auto.
  destruct D as (Fz & V & S). apply (bits_inj Wz Wy Fz Fy); auto. rewrite V.
  destruct (nth_error (elems X x) i) as [xi|] eqn:Hxi.
  2:{ apply nth_error_None in Hxi. assert (i < length (elems X y)) by (apply nth_error_Some; congruence). rewrite (elems_length HX Sy) in H. rewrite (elems_length HX Hx) in Hxi. lia. }
  destruct (Ry i xi Hxi) as (yi' & Hyi' & D). assert (yi' = yi) by congruence. subst yi'. unfold rounds_to in D.
  destruct (isnanb (xf X) xi) eqn:Nx; [congruence|]. destruct (isfin (xf X) xi) eqn:Fx; [|congruence]. destruct D as (_ & V' & _). rewrite V'. now rewrite zfun_IZR.
Qed.
Print Assumptions C71_rounding_twice_partial.

Lemma neg_val (f : fmt) x (y := Z.lxor x (2 ^ (fw f - 1))) : word (fw f) x ->
  isfin f y = isfin f x /\ isnanb f y = isnanb f x /\ (isfin f x = true -> val f y = (- val f x)%R) /\ fsign (fw f) y = negb (fsign (fw f) x).
Proof.
  intros Hx. pose proof (fmag_range (f := f) x) as R. assert (E : y = (fmag (fw f) x + (if negb (fsign (fw f) x) then 2 ^ (fw f - 1) else 0))%Z) by (apply (neg_lane Hx)). clearbody y.
  assert (Wy : word (fw f) y) by (rewrite E; now apply word_join). assert (Sy : fsign (fw f) y = negb (fsign (fw f) x)) by (rewrite E; now apply fsign_join). assert (My : fmag (fw f) y = fmag (fw f) x) by (rewrite E; now apply fmag_join).
  assert (Fy : isfin f y = isfin f x) by (rewrite (isfin_spec Wy), My, <- (isfin_spec Hx); reflexivity). split; auto. split. { rewrite (isnan_spec Wy), (isnan_spec Hx). unfold fnan. now rewrite My. }
  split; auto. intros Fx. rewrite Fx in Fy. rewrite (val_mag Wy Fy), (val_mag Hx Fx), Sy, My. destruct (fsign (fw f) x); cbn [negb]; lra.
Qed.

(** floor(-x) = -ceil(x), ceil(-x) = -floor(x), and trunc, rint and nearbyint are odd, bit for bit. *)
Theorem C71_mirror_partial : forall nn F X x k, xty_ok X -> is_int (xT X) = false -> is256 X = true \/ sse41 (xc X) = true -> shaped X x ->
  exists m r s t, x_neg X F x = Ok m /\ call k X nn m = Ok r /\ call (mirror k) X nn x = Ok s /\ x_neg X F s = Ok t /\ shaped X r /\ shaped X t /\
    forall i ri, nth_error (elems X r) i = Some ri -> exists ti, nth_error (elems X t) i = Some ti /\ same_fp (xf X) ri ti.
Proof.
  intros nn F X x k HX HF N Hx.
  assert (NE : forall a, shaped X a -> each1 X a (x_neg X F a) (fun u v => v = Z.lxor u (2 ^ (fw (xf X) - 1)))).
  { intros a Ha. apply (map1_each HX Ha (x_neg_ok HX F Ha)). intros u Hu. unfold lane_neg. rewrite HF. now rewrite (xw_fw HX HF). }
  destruct (NE x Hx) as (m & Em & Sm & Rm). destruct (call_ok nn k HX HF N Sm) as (r & Er & Sr & Rr). destruct (call_ok nn (mirror k) HX HF N Hx) as (s & Es & Ss & Rs). destruct (NE s Ss) as (t & Et & St & Rt).
  exists m, r, s, t. do 6 (split; auto). intros i ri Hi.
  destruct (nth_error (elems X x) i) as [xi|] eqn:Hxi.
  2:{ apply nth_error_None in Hxi. assert (i < length (elems X r)) by (apply nth_error_Some; congruence). rewrite (elems_length HX Sr) in H. rewrite (elems_length HX Hx) in Hxi. lia. }
  destruct (Rm i xi Hxi) as (mi & Hmi & Dm). destruct (Rr i mi Hmi) as (ri' & Hri' & Dr). assert (ri' = ri) by congruence. subst ri'. destruct (Rs i xi Hxi) as (si & Hsi & Ds). destruct (Rt i si Hsi) as (ti & Hti & Dt).
  exists ti. split; auto. pose proof (el_word _ Hx Hxi) as Wx. pose proof (el_word _ Sr Hi) as Wr. pose proof (el_word _ Ss Hsi) as Ws. pose proof (el_word _ St Hti) as Wt. rewrite (xw_fw HX HF) in *.
  destruct (neg_val (xf X) Wx) as (M1 & M2 & M3 & M4). destruct (neg_val (xf X) Ws) as (T1 & T2 & T3 & T4). rewrite <- Dm in *. rewrite <- Dt in *. unfold rounds_to in Dr, Ds. rewrite M1, M2 in Dr. unfold same_fp.
  destruct (isnanb (xf X) xi) eqn:Nx. { rewrite Dr. rewrite T2. exact Ds. }
  destruct (isfin (xf X) xi) eqn:Fx.
  - destruct Dr as (R1 & R2 & R3). destruct Ds as (S1 & S2 & S3). rewrite (fin_nan _ R1). apply (bits_inj Wt Wr); auto; [congruence| |congruence].
    rewrite (T3 S1), S2, R2, (M3 eq_refl), zfun_opp, opp_IZR. reflexivity.
  - subst. rewrite M2. reflexivity.
Qed.
Print Assumptions C71_mirror_partial.

(** The rounding functions are monotone. *)
Theorem C71_monotone_partial : forall nn X x y k, xty_ok X -> is_int (xT X) = false -> is256 X = true \/ sse41 (xc X) = true -> shaped X x -> shaped X y ->
  exists r s, call k X nn x = Ok r /\ call k X nn y = Ok s /\ shaped X r /\ shaped X s /\
    forall i xi yi, nth_error (elems X x) i = Some xi -> nth_error (elems X y) i = Some yi -> isfin (xf X) xi = true -> isfin (xf X) yi = true -> (val (xf X) xi <= val (xf X) yi)%R ->
      exists ri si, nth_error (elems X r) i = Some ri /\ nth_error (elems X s) i = Some si /\ isfin (xf X) ri = true /\ isfin (xf X) si = true /\ (val (xf X) ri <= val (xf X) si)%R.
Proof.
  intros nn X x y k HX HF N Hx Hy. destruct (call_ok nn k HX HF N Hx) as (r & Er & Sr & Rr). destruct (call_ok nn k HX HF N Hy) as (s & Es & Ss & Rs). exists r, s. do 4 (split; auto).
  intros i xi yi Hxi Hyi Fx Fy L. destruct (Rr i xi Hxi) as (ri & Hri & Dr). destruct (Rs i yi Hyi) as (si & Hsi & Ds). exists ri, si. do 2 (split; auto).
  unfold rounds_to in Dr, Ds. rewrite (fin_nan _ Fx), Fx in Dr. rewrite (fin_nan _ Fy), Fy in Ds. destruct Dr as (R1 & R2 & _). destruct Ds as (S1 & S2 & _). do 2 (split; auto). rewrite R2, S2. apply IZR_le. now apply zfun_le.
Qed.
Print Assumptions C71_monotone_partial.

(** floor(x) <= x <= ceil(x), and the two are equal or differ by one. *)
Theorem C71_bracket_partial : forall nn X x, xty_ok X -> is_int (xT X) = false -> is256 X = true \/ sse41 (xc X) = true -> shaped X x ->
  exists l u, x_floor X nn x = Ok l /\ x_ceil X nn x = Ok u /\ shaped X l /\ shaped X u /\
    forall i xi, nth_error (elems X x) i = Some xi -> isfin (xf X) xi = true ->
      exists li ui, nth_error (elems X l) i = Some li /\ nth_error (elems X u) i = Some ui /\ isfin (xf X) li = true /\ isfin (xf X) ui = true /\
        (val (xf X) li <= val (xf X) xi <= val (xf X) ui)%R /\ (val (xf X) ui = val (xf X) li \/ val (xf X) ui = val (xf X) li + 1)%R.
Proof.
  intros nn X x HX HF N Hx. destruct (call_ok nn RFloor HX HF N Hx) as (l & El & Sl & Rl). destruct (call_ok nn RCeil HX HF N Hx) as (u & Eu & Su & Ru). exists l, u. do 4 (split; auto).
  intros i xi Hi Fx. destruct (Rl i xi Hi) as (li & Hli & Dl). destruct (Ru i xi Hi) as (ui & Hui & Du). exists li, ui. do 2 (split; auto). unfold rounds_to in Dl, Du. rewrite (fin_nan _ Fx), Fx in Dl, Du.
  destruct Dl as (L1 & L2 & _). destruct Du as (U1 & U2 & _). do 2 (split; auto). cbn [zfun] in *. rewrite L2, U2. split. { split; [apply Zfloor_lb|apply Zceil_ub]. }
  destruct (Req_dec (IZR (Zfloor (val (xf X) xi))) (val (xf X) xi)) as [E|E].
  - left. rewrite <- E at 1. now rewrite Zceil_IZR.
  - right. rewrite Zceil_floor_neq by auto. now rewrite plus_IZR.
Qed.
Print Assumptions C71_bracket_partial.

Example C71_case : xty_ok (f4 sse4) /\ sse41 (xc (f4 sse4)) = true /\
  bind (x_neg (f4 sse4) (ieee nans0) [[0xc0200000; 0x3f000000; 0x7f800000; 0xbf800000]]%Z) (x_floor (f4 sse4) nans0) = bind (x_ceil (f4 sse4) nans0 [[0xc0200000; 0x3f000000; 0x7f800000; 0xbf800000]]%Z) (x_neg (f4 sse4) (ieee nans0)) /\   (* -2.5, 0.5, inf, -1 *)
  bind (x_floor (f4 sse4) nans0 [[0xc0200000; 0x3f000000; 0x7f800000; 0xbf800000]]%Z) (x_rint (f4 sse4) nans0) = Ok [[0xc0400000; 0; 0x7f800000; 0xbf800000]]%Z.
Proof. split; [xok|split; [reflexivity|split; vm_compute; reflexivity]]. Qed.
