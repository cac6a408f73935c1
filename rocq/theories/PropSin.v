(** C54, C55: how accurate sin, cos and sincos are. *)
From Coq Require Import ZifyBool ZifyNat Reals Lra.
From Flocq Require Import Core IEEE754.BinarySingleNaN IEEE754.Binary.
From Verif Require Import Base Cxx Spec X86Vec X86 X86Lemmas X86Proofs X86Masks X86Ops X86Shift Fp FpLemmas FpOps FKern FMath FMathProofs FLane FFields FManip FManipLanes LogbProofs
  PropX86 PropFloat PropManip Cvt CvtProofs PropCvt Round RoundProofs RoundLanes RoundSem PropRound FArith PropArith FCvt Hypot HypotProofs HypotSem PropHypot PropIeee LogTab Log LogProofs PropLog TrigTab Trig TrigProofs PropTrig FErr IvPoly PiBound SinPoly SinEval SinRed SinAcc.
Set Implicit Arguments.
Open Scope Z_scope.


(** *** Specification *)
(** [y] is a finite number that differs from the real number [r] by at most [e] *)
Definition within (f : fmt) (e r : R) (y : Z) : Prop := isfin f y = true /\ (Rabs (val f y - r) <= e)%R.
(** the error allowed for floats: 2^-20, and without fused multiply-add another |x| * 2^-24 *)
Definition float_err (fm : bool) (x : R) : R := (bpow radix2 (-20) + (if fm then 0 else Rabs x * bpow radix2 (-24)))%R.
(** doubles: 2^-50 *)
Definition double_err : R := bpow radix2 (-50).
(** builds on which the octant of a double is converted back to a double for every octant: 128-bit vectors without SSE4.1, 256-bit vectors with AVX2 *)
Definition octants_convert (X : xty) : bool := if is256 X then avx2 (xc X) else negb (sse41 (xc X)).

(** *** Proofs *)
Section P.
Context {X : xty} (HX : xty_ok X) (HF : is_int (xT X) = false) (fm he : bool) (nn : nans).
Local Notation f := (xf X).
Lemma perr_val : (IZR (perr f) * UU <= match f with F32 => 75 / 10 * uu F32 | F64 => 25 / 10 * uu F64 end)%R.
Proof.
  pose proof UU_inv as I. destruct f; cbn [perr]; rewrite ?uu32, ?uu64.
  - replace (2 ^ 140) with (2 ^ 110 * 1073741824) in I by reflexivity. rewrite mult_IZR in *. assert (IZR (2 ^ 110) * UU = / 1073741824)%R by (apply Rmult_eq_reg_r with 1073741824%R; lra). lra.
  - replace (2 ^ 140) with (2 ^ 80 * 1152921504606846976) in I by reflexivity. rewrite mult_IZR in *. assert (IZR (2 ^ 80) * UU = / 1152921504606846976)%R by (apply Rmult_eq_reg_r with 1152921504606846976%R; lra). lra.
Qed.
Lemma terr_ok A : (0 <= A)%R -> (terr (X := X) fm A <= match f with F32 => float_err fm A | F64 => double_err end)%R.
Proof.
  intros HA. unfold terr. pose proof perr_val as P. destruct f; cbn [rderr] in *; unfold float_err, double_err; rewrite ?uu32, ?uu64 in *.
  - rewrite (Rabs_pos_eq A) by auto. change (bpow radix2 (-20)) with (/ 1048576)%R. change (bpow radix2 (-24)) with (/ 16777216)%R. destruct fm; lra.
  - change (bpow radix2 (-50)) with (/ 1125899906842624)%R. lra.
Qed.
Lemma mag_val x : word (fw f) x -> isfin f x = true -> word (fw f) (fmag (fw f) x) /\ isfin f (fmag (fw f) x) = true /\ val f (fmag (fw f) x) = Rabs (val f x).
Proof.
  intros Hx Fx. set (a := fmag (fw f) x). assert (Wa : word (fw f) a) by exact (mag_word HF x). assert (Fa : isfin f a = true) by (rewrite (isfin_spec Wa); unfold a; rewrite mag_mag, <- (isfin_spec Hx); auto). split; auto. split; auto.
  rewrite (val_mag Wa Fa), (val_mag Hx Fx). unfold a. rewrite (mag_sign HF), mag_mag. pose proof (mval_ge0 f (fin_word f Hx)). destruct (fsign _ x); [rewrite Rabs_Ropp|]; now rewrite Rabs_pos_eq.
Qed.
Lemma fin_path x : word (fw f) x -> isfin f x = true -> (Rabs (val f x) <= 4194304)%R -> over1 (X := X) (dom1 (X := X) he nn (ab1 (X := X) x)) = false /\ dom1 (X := X) he nn (ab1 (X := X) x) = fmag (fw f) x.
Proof.
  intros Hx Fx Bx. split.
  - apply path_over; auto. left. split; auto. eapply Rle_trans; [exact Bx|]. change 4194304%R with (bpow radix2 22). apply bpow_le. destruct f; lia.
  - rewrite (ab_mag HX HF Hx). unfold dom1. rewrite (xw_fw HX HF). destruct he; auto. destruct (mag_val Hx Fx) as (Wa & Fa & _). replace (feq (fw f) (fmag (fw f) x) (finf (fw f))) with false; auto.
    unfold feq. replace (fkey (fw f) (finf (fw f))) with (finf (fw f)) by (destruct f; reflexivity). unfold fkey. rewrite (mag_sign HF), mag_mag. rewrite (isfin_spec Hx) in Fx. symmetry. destruct (fnan _ _), (fnan _ _); cbn [negb andb]; auto. lia.
Qed.
Lemma val_sgn x : word (fw f) x -> isfin f x = true -> val f x = (sgm (fsign (fw f) x) * Rabs (val f x))%R.
Proof. intros Hx Fx. rewrite (val_mag Hx Fx). pose proof (mval_ge0 f (fin_word f Hx)). destruct (fsign _ x); cbn [sgm]; [rewrite Rabs_Ropp|]; rewrite Rabs_pos_eq by auto; ring. Qed.
Lemma sincos_err x ls lc : word (fw f) x -> isfin f x = true -> (Rabs (val f x) <= 4194304)%R -> f = F32 \/ good64 (X := X) = true \/ (Rabs (val f x) <= 32768)%R ->
  let e := match f with F32 => float_err fm (val f x) | F64 => double_err end in
  within f e (sin (val f x)) (sin1 (X := X) fm he nn ls x) /\ within f e (cos (val f x)) (cos1 (X := X) fm he nn lc x).
Proof.
  intros Hx Fx Bx G. cbv zeta. destruct (fin_path Hx Fx Bx) as (O & D). destruct (mag_val Hx Fx) as (Wa & Fa & Va). unfold sin1, cos1. rewrite O, D. set (a := fmag (fw f) x) in *. clearbody a.
  assert (Ba : (0 <= val f a <= 4194304)%R) by (rewrite Va; split; [apply Rabs_pos|auto]).
  assert (Go : f = F32 \/ good64 (X := X) = true \/ oct1 (X := X) nn a < 2 ^ 16).
  { destruct G as [G | [G | G]]; auto. right. right. destruct (@oct_ok X HX HF nn a Wa Fa Ba) as (j & Ej & Rj & _ & Br). rewrite Ej. rewrite Va in Br. apply Rabs_le_inv in Br. apply lt_IZR. change (2 ^ 16) with 65536.
    pose proof pi4_bounds as P4. assert (rmax f <= 12 / 10)%R by (clear; destruct f; cbn [rmax]; lra). assert (J : (0 <= IZR j)%R) by (apply IZR_le; lia). clear -Br P4 H G J. assert (IZR j * (12867 / 16384) <= IZR j * (PI / 4))%R by (apply Rmult_le_compat_l; lra). lra. }
  destruct (kern_err HX HF fm nn Wa Fa Ba Go) as (KS & KC). cbv zeta in KC. destruct KC as (_ & FC & EC). destruct (KS (fsign (fw f) x)) as (_ & FS & ES). clear KS.
  assert (TE := terr_ok (Rabs_pos (val f x))). rewrite Va in EC, ES.
  assert (TE' : (terr (X := X) fm (Rabs (val f x)) <= match f with F32 => float_err fm (val f x) | F64 => double_err end)%R). { eapply Rle_trans; [exact TE|]. right. unfold float_err. rewrite Rabs_Rabsolu. reflexivity. }
  split; split.
  - unfold sx1. rewrite (xw_fw HX HF). exact FS.
  - unfold sx1. rewrite (xw_fw HX HF). eapply Rle_trans; [|exact TE']. eapply Rle_trans; [|exact ES]. right. f_equal. f_equal. rewrite (val_sgn Hx Fx) at 1. destruct (fsign (fw f) x); cbn [sgm]; [replace (-1 * Rabs (val f x))%R with (- Rabs (val f x))%R by ring; rewrite sin_neg; ring|]. rewrite !Rmult_1_l. reflexivity.
  - exact FC.
  - eapply Rle_trans; [|exact TE']. eapply Rle_trans; [|exact EC]. right. f_equal. f_equal. rewrite (val_sgn Hx Fx) at 1. destruct (fsign (fw f) x); cbn [sgm]; [replace (-1 * Rabs (val f x))%R with (- Rabs (val f x))%R by ring; apply cos_neg|]. now rewrite Rmult_1_l.
Qed.
End P.

(** *** C54: float *)
(** Every build: for finite |x| <= 2^22 (the whole vector path) the results are finite and within 2^-20 of sin x and cos x; without fused multiply-add
    the error also grows by |x| * 2^-24. *)
Theorem C54_sin_float : forall nn X fm he ls a, xty_ok X -> is_int (xT X) = false -> esz (xT X) = 4%nat -> libm_ok X ls -> shaped X a ->
  each1 X a (x_sin X fm he nn ls a) (fun x y => isfin F32 x = true -> (Rabs (val F32 x) <= bpow radix2 22)%R -> within F32 (float_err fm (val F32 x)) (sin (val F32 x)) y).
Proof.
  intros nn X fm he ls a HX HF E4 Hl Ha. destruct (xT_float HX HF) as [(_ & Ef & _) | (Q & _)]; [|congruence].
  apply (@k_each X HX (fun v => fst (k_sincos X fm he nn ls ls v)) (sin1 (X := X) fm he nn ls)); auto. { intros k v x Hk Hv. exact (proj1 (l_sincos HX HF fm he nn ls ls Hl Hl Hv)). }
  intros x Hx Fx Bx. rewrite (xw_fw HX HF) in Hx. rewrite <- Ef in *. pose proof (proj1 (@sincos_err X HX HF fm he nn x ls ls Hx Fx Bx (or_introl Ef))) as R. rewrite Ef in *. exact R.
Qed.
Print Assumptions C54_sin_float.
Theorem C54_cos_float : forall nn X fm he lc a, xty_ok X -> is_int (xT X) = false -> esz (xT X) = 4%nat -> libm_ok X lc -> shaped X a ->
  each1 X a (x_cos X fm he nn lc a) (fun x y => isfin F32 x = true -> (Rabs (val F32 x) <= bpow radix2 22)%R -> within F32 (float_err fm (val F32 x)) (cos (val F32 x)) y).
Proof.
  intros nn X fm he lc a HX HF E4 Hl Ha. destruct (xT_float HX HF) as [(_ & Ef & _) | (Q & _)]; [|congruence].
  apply (@k_each X HX (fun v => snd (k_sincos X fm he nn lc lc v)) (cos1 (X := X) fm he nn lc)); auto. { intros k v x Hk Hv. exact (proj2 (l_sincos HX HF fm he nn lc lc Hl Hl Hv)). }
  intros x Hx Fx Bx. rewrite (xw_fw HX HF) in Hx. rewrite <- Ef in *. pose proof (proj2 (@sincos_err X HX HF fm he nn x lc lc Hx Fx Bx (or_introl Ef))) as R. rewrite Ef in *. exact R.
Qed.
Print Assumptions C54_cos_float.
(** *** C55: double *)
(** |x| <= 2^22 on builds whose 64-bit conversion works, |x| <= 2^15 on every build: finite and within 2^-50.
    Missing for the full statement: 2^22 < |x| <= 2^51. *)
Theorem C55_sin_double_partial : forall nn X fm he ls a, xty_ok X -> is_int (xT X) = false -> esz (xT X) = 8%nat -> libm_ok X ls -> shaped X a ->
  each1 X a (x_sin X fm he nn ls a) (fun x y => isfin F64 x = true -> (Rabs (val F64 x) <= bpow radix2 (if octants_convert X then 22 else 15))%R -> within F64 double_err (sin (val F64 x)) y).
Proof.
  intros nn X fm he ls a HX HF E4 Hl Ha. destruct (xT_float HX HF) as [(Q & _) | (_ & Ef & _)]; [congruence|].
  apply (@k_each X HX (fun v => fst (k_sincos X fm he nn ls ls v)) (sin1 (X := X) fm he nn ls)); auto. { intros k v x Hk Hv. exact (proj1 (l_sincos HX HF fm he nn ls ls Hl Hl Hv)). }
  intros x Hx Fx Bx. rewrite (xw_fw HX HF) in Hx. rewrite <- Ef in *.
  assert (B : (Rabs (val (xf X) x) <= 4194304)%R /\ (xf X = F32 \/ good64 (X := X) = true \/ (Rabs (val (xf X) x) <= 32768)%R)).
  { unfold octants_convert in Bx. fold (good64 (X := X)) in Bx. destruct (good64 (X := X)); [change (bpow radix2 22) with 4194304%R in Bx; auto|]. change (bpow radix2 15) with 32768%R in Bx. split; [lra|auto]. }
  pose proof (proj1 (@sincos_err X HX HF fm he nn x ls ls Hx Fx (proj1 B) (proj2 B))) as R. rewrite Ef in *. exact R.
Qed.
Print Assumptions C55_sin_double_partial.
Theorem C55_cos_double_partial : forall nn X fm he lc a, xty_ok X -> is_int (xT X) = false -> esz (xT X) = 8%nat -> libm_ok X lc -> shaped X a ->
  each1 X a (x_cos X fm he nn lc a) (fun x y => isfin F64 x = true -> (Rabs (val F64 x) <= bpow radix2 (if octants_convert X then 22 else 15))%R -> within F64 double_err (cos (val F64 x)) y).
Proof.
  intros nn X fm he lc a HX HF E4 Hl Ha. destruct (xT_float HX HF) as [(Q & _) | (_ & Ef & _)]; [congruence|].
  apply (@k_each X HX (fun v => snd (k_sincos X fm he nn lc lc v)) (cos1 (X := X) fm he nn lc)); auto. { intros k v x Hk Hv. exact (proj2 (l_sincos HX HF fm he nn lc lc Hl Hl Hv)). }
  intros x Hx Fx Bx. rewrite (xw_fw HX HF) in Hx. rewrite <- Ef in *.
  assert (B : (Rabs (val (xf X) x) <= 4194304)%R /\ (xf X = F32 \/ good64 (X := X) = true \/ (Rabs (val (xf X) x) <= 32768)%R)).
  { unfold octants_convert in Bx. fold (good64 (X := X)) in Bx. destruct (good64 (X := X)); [change (bpow radix2 22) with 4194304%R in Bx; auto|]. change (bpow radix2 15) with 32768%R in Bx. split; [lra|auto]. }
  pose proof (proj2 (@sincos_err X HX HF fm he nn x lc lc Hx Fx (proj1 B) (proj2 B))) as R. rewrite Ef in *. exact R.
Qed.
Print Assumptions C55_cos_double_partial.
(** With SSE4.1 (128-bit) or AVX without AVX2 (256-bit) the sine of 131072 comes out as about 1.7 * 10^59; with AVX2 that of 2247401767174144 (below 2^51) as about 1.35 * 10^177. *)
Theorem C55_sin_double_refuted :
  (exists y, x_sin (d2 sse4) false false nans0 (fun x => x) [[0x4100000000000000; 0x4100000000000000]]%Z = Ok [[y; y]] /\ val F64 0x4100000000000000 = 131072%R /\ isfin F64 y = true /\ (IZR (10 ^ 59) <= val F64 y)%R /\ ~ within F64 (IZR (10 ^ 58)) (sin (val F64 0x4100000000000000)) y) /\
  (exists y, x_sin (d4 avx1) false false nans0 (fun x => x) [[0x4100000000000000; 0x4100000000000000; 0x4100000000000000; 0x4100000000000000]]%Z = Ok [[y; y; y; y]] /\ (IZR (10 ^ 59) <= val F64 y)%R) /\
  (exists y, x_sin (d4 haswell) true false nans0 (fun x => x) [[0x431ff00000000000; 0x431ff00000000000; 0x431ff00000000000; 0x431ff00000000000]]%Z = Ok [[y; y; y; y]] /\ val F64 0x431ff00000000000 = IZR 2247401767174144 /\ (IZR (10 ^ 177) <= val F64 y)%R).
Proof.
  assert (V : val F64 5493029703954828792 = (IZR 7645357817564664 * bpow radix2 (144))%R) by (apply val_cst; [unfold word; cbn [fw]; lia|reflexivity|vm_compute; reflexivity|vm_compute; reflexivity]).
  assert (B : (IZR (10 ^ 59) <= val F64 5493029703954828792)%R). { rewrite V. rewrite <- IZR_Zpower by lia. rewrite <- mult_IZR. apply IZR_le. vm_compute. discriminate. }
  split; [|split].
  - exists 5493029703954828792. split; [vm_compute; reflexivity|]. split. { rewrite (@val_cst F64 0x4100000000000000 (2 ^ 52) (-35)) by (try reflexivity; unfold word; cbn [fw]; lia). change (2 ^ 52) with (Zpower radix2 52). rewrite IZR_Zpower by lia. rewrite <- bpow_plus. reflexivity. }
    split; [reflexivity|]. split; [exact B|]. intros [_ D]. apply Rabs_le_inv in D. pose proof (SIN_bound (val F64 0x4100000000000000)) as S. assert (IZR (10 ^ 58) + 1 < IZR (10 ^ 59))%R. { rewrite <- (plus_IZR _ 1). apply IZR_lt. reflexivity. } lra.
  - exists 5493029703954828792. split; [vm_compute; reflexivity|exact B].
  - exists 7256797862803485427. split; [vm_compute; reflexivity|]. split. { rewrite (@val_cst F64 0x431ff00000000000 (2247401767174144 * 2 ^ 2) (-2)) by (try reflexivity; unfold word; cbn [fw]; lia). rewrite mult_IZR. change (bpow radix2 (-2)) with (/ 4)%R. change (IZR (2 ^ 2)) with 4%R. field. }
    rewrite (@val_cst F64 7256797862803485427 6002462736986867 536) by (try (unfold word; cbn [fw]; lia); vm_compute; reflexivity). rewrite <- IZR_Zpower by lia. rewrite <- mult_IZR. apply IZR_le. vm_compute. discriminate.
Qed.
Print Assumptions C55_sin_double_refuted.
(** Without fused multiply-add the growth is real: the sine of 10^6 is off by more than 2^-9. *)
Theorem C54_unfused_error_grows : exists x y, (shaped (f4 haswell) [[x; x; x; x]] /\ val F32 x = 1000000%R) /\ x_sin (f4 haswell) false false nans0 (fun v => v) [[x; x; x; x]] = Ok [[y; y; y; y]] /\ ~ within F32 (bpow radix2 (-9)) (sin (val F32 x)) y.
Proof.
  exists 0x49742400%Z, 3199509094%Z. assert (S : shaped (f4 haswell) [[0x49742400; 0x49742400; 0x49742400; 0x49742400]]%Z) by shp.
  assert (V : val F32 0x49742400 = 1000000%R). { rewrite (@val_cst F32 0x49742400 16000000 (-4)) by (try reflexivity; unfold word; cbn [fw]; lia). change (bpow radix2 (-4)) with (/ 16)%R. field. }
  split; [split; auto|]. split; [vm_compute; reflexivity|]. intros [_ D].
  destruct (@C54_sin_float nans0 (f4 haswell) true false (fun v => v) _ ltac:(xok) eq_refl eq_refl ltac:(intros v Hv; exact Hv) S) as (u & E & _ & H).
  assert (E2 : x_sin (f4 haswell) true false nans0 (fun v => v) [[0x49742400; 0x49742400; 0x49742400; 0x49742400]]%Z = Ok [[3199414873; 3199414873; 3199414873; 3199414873]]%Z) by (vm_compute; reflexivity).
  rewrite E2 in E. injection E as <-. destruct (H 0%nat 0x49742400 eq_refl) as (y & Ey & W). cbn in Ey. injection Ey as <-. destruct (W eq_refl) as [_ D2]. { rewrite V, Rabs_pos_eq by lra. change (bpow radix2 22) with 4194304%R. lra. }
  unfold float_err in D2. rewrite Rplus_0_r in D2. set (s := sin (val F32 0x49742400)) in *. clearbody s. apply Rabs_le_inv in D. apply Rabs_le_inv in D2.
  rewrite (@val_cst F32 3199509094 (-11838054) (-25)) in D by (try (unfold word; cbn [fw]; lia); vm_compute; reflexivity). rewrite (@val_cst F32 3199414873 (-11743833) (-25)) in D2 by (try (unfold word; cbn [fw]; lia); vm_compute; reflexivity).
  change (bpow radix2 (-25)) with (/ 33554432)%R in *. change (bpow radix2 (-9)) with (/ 512)%R in *. change (bpow radix2 (-20)) with (/ 1048576)%R in *. lra.
Qed.
Print Assumptions C54_unfused_error_grows.
(** 1, -2.5, 100, 0.3 with fused multiply-add: the theorem applies and gives the sine of 100 to 2^-20; doubles 1 and 64 without SSE3 *)
Example C54_case : xty_ok (f4 haswell) /\ is_int (xT (f4 haswell)) = false /\ shaped (f4 haswell) [[0x3f800000; 0xc0200000; 0x42c80000; 0x3e99999a]]%Z /\ libm_ok (f4 haswell) (fun x => x) /\
  within F32 (bpow radix2 (-20)) (sin 100) 0xbf01a12e.
Proof.
  assert (S : shaped (f4 haswell) [[0x3f800000; 0xc0200000; 0x42c80000; 0x3e99999a]]%Z) by shp. split; [xok|]. split; [reflexivity|]. split; [exact S|]. split; [intros v Hv; exact Hv|].
  destruct (@C54_sin_float nans0 (f4 haswell) true false (fun v => v) _ ltac:(xok) eq_refl eq_refl ltac:(intros v Hv; exact Hv) S) as (u & E & _ & H).
  assert (E2 : x_sin (f4 haswell) true false nans0 (fun v => v) [[0x3f800000; 0xc0200000; 0x42c80000; 0x3e99999a]]%Z = Ok [[0x3f576aa4; 0xbf193579; 0xbf01a12e; 0x3e974e6d]]%Z) by (vm_compute; reflexivity).
  rewrite E2 in E. injection E as <-. destruct (H 2%nat 0x42c80000 eq_refl) as (y & Ey & W). cbn in Ey. injection Ey as <-.
  assert (V : val F32 0x42c80000 = 100%R). { rewrite (@val_cst F32 0x42c80000 13107200 (-17)) by (try reflexivity; unfold word; cbn [fw]; lia). change (bpow radix2 (-17)) with (/ 131072)%R. field. }
  rewrite V in W. unfold float_err in W. rewrite Rplus_0_r in W. apply W; [reflexivity|]. rewrite Rabs_pos_eq by lra. change (bpow radix2 22) with 4194304%R. lra.
Qed.
Example C55_case : xty_ok (d2 sse2) /\ is_int (xT (d2 sse2)) = false /\ shaped (d2 sse2) [[0x3ff0000000000000; 0x4050000000000000]]%Z /\ octants_convert (d2 sse2) = true /\ within F64 double_err (sin 64) 4606462077390864856.
Proof.
  assert (S : shaped (d2 sse2) [[0x3ff0000000000000; 0x4050000000000000]]%Z) by shp. split; [xok|]. split; [reflexivity|]. split; [exact S|]. split; [reflexivity|].
  destruct (@C55_sin_double_partial nans0 (d2 sse2) false false (fun v => v) _ ltac:(xok) eq_refl eq_refl ltac:(intros v Hv; exact Hv) S) as (u & E & _ & H).
  assert (E2 : x_sin (d2 sse2) false false nans0 (fun v => v) [[0x3ff0000000000000; 0x4050000000000000]]%Z = Ok [[4605754516372524270; 4606462077390864856]]%Z) by (vm_compute; reflexivity).
  rewrite E2 in E. injection E as <-. destruct (H 1%nat 0x4050000000000000 eq_refl) as (y & Ey & W). cbn in Ey. injection Ey as <-.
  assert (V : val F64 0x4050000000000000 = 64%R). { rewrite (@val_cst F64 0x4050000000000000 (2 ^ 52) (-46)) by (try reflexivity; unfold word; cbn [fw]; lia). change (2 ^ 52) with (Zpower radix2 52). rewrite IZR_Zpower by lia. rewrite <- bpow_plus. reflexivity. }
  rewrite V in W. apply W; [reflexivity|]. rewrite Rabs_pos_eq by lra. change (octants_convert (d2 sse2)) with true. cbv iota. change (bpow radix2 22) with 4194304%R. lra.
Qed.
Close Scope Z_scope.
