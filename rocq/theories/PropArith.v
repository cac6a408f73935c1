(** fma and its variants, fdim, lerp (C44). *)
From Coq Require Import ZifyBool ZifyNat Reals Lra.
From Flocq Require Import Core Plus_error IEEE754.BinarySingleNaN IEEE754.Binary.
From Verif Require Import Base Cxx Spec X86Vec X86 X86Lemmas X86Proofs X86Masks X86Ops X86Shift Fp FpLemmas FpOps FKern FMath FMathProofs FNext PropX86 PropFloat
  FLane FManip FManipLanes FFields FScalbn PropManip Cvt CvtProofs PropCvt LogbProofs RoundProofs RoundSem PropRound FArith.
Set Implicit Arguments.
Local Open Scope nat_scope.

(** defined, and P holds for the elements at every index *)
Definition each3 (X : xty) (a b c : list vec) (r : res (list vec)) (P : Z -> Z -> Z -> Z -> Prop) : Prop :=
  exists v, r = Ok v /\ shaped X v /\
    forall i x y z, nth_error (elems X a) i = Some x -> nth_error (elems X b) i = Some y -> nth_error (elems X c) i = Some z ->
      exists t, nth_error (elems X v) i = Some t /\ P x y z t.
(** y is the real number r rounded once (nearest even): the rounded value if it is below the overflow threshold, else an infinity of the sign of r *)
Definition correct_round (f : fmt) (r : R) (y : Z) : Prop :=
  if Rlt_bool (Rabs (rnd f r)) (bpow radix2 (emax f)) then isfin f y = true /\ val f y = rnd f r else y = infs f (Rlt_bool r 0).
Definition fin3 (f : fmt) (a b c : Z) : Prop := isfin f a = true /\ isfin f b = true /\ isfin f c = true.

Lemma wfv_vmap3 X (g : Z -> Z -> Z -> Z) u v t : wfv X u -> wfv X v -> wfv X t -> (forall x y z, word (xw X) x -> word (xw X) y -> word (xw X) z -> word (xw X) (g x y z)) -> wfv X (vmap3 g u v t).
Proof.
  intros [Lu Wu] [Lv Wv] [Lt Wt] Hg. split. { rewrite vmap3_length; lia. } clear Lu Lv Lt. revert v Wv t Wt. induction Wu as [|x u Hx Wu IH]; intros v Wv t Wt; [constructor|].
  destruct Wv as [|y v Hy Wv]; [constructor|]. destruct Wt as [|z t Hz Wt]; [constructor|]. cbn. constructor; auto. apply IH; auto.
Qed.
Section K3.
Context {X : xty} (HX : xty_ok X) (HF : is_int (xT X) = false) (nn : nans).
Local Notation w := (xw X).
Local Notation f := (xf X).
Lemma l_vmap3 k (g : Z -> Z -> Z -> Z) a b c x y z : (forall x y z, word w x -> word w y -> word w z -> word w (g x y z)) -> L X k a x -> L X k b y -> L X k c z -> L X k (vmap3 g a b c) (g x y z).
Proof. intros Hg [Ha H] [Hb H'] [Hc H'']. split. { apply wfv_vmap3; auto. } now apply nth_error_vmap3. Qed.
Lemma kernel3L (K : vec -> vec -> vec -> vec) (g : Z -> Z -> Z -> Z) :
  (forall k a b c x y z, k < ext X -> L X k a x -> L X k b y -> L X k c z -> L X k (K a b c) (g x y z)) -> forall a b c, wfv X a -> wfv X b -> wfv X c -> K a b c = vmap3 g a b c.
Proof.
  intros H a b c Ha Hb Hc. pose proof (ext_pos HX) as He.
  assert (LK : length (K a b c) = ext X).
  { destruct (L_all HX Ha He) as [x Hx], (L_all HX Hb He) as [y Hy], (L_all HX Hc He) as [z Hz]. exact (proj1 (proj1 (H _ _ _ _ _ _ _ He Hx Hy Hz))). }
  symmetry. apply (@L_ext X). { rewrite vmap3_length; destruct Ha, Hb, Hc; lia. } { exact LK. }
  intros k t Hk Ht. destruct (L_all HX Ha Hk) as [x Hx], (L_all HX Hb Hk) as [y Hy], (L_all HX Hc Hk) as [z Hz].
  rewrite (nth_error_vmap3 g a b c k (proj2 Hx) (proj2 Hy) (proj2 Hz)) in Ht. injection Ht as <-.
  exact (proj2 (H _ _ _ _ _ _ _ Hk Hx Hy Hz)).
Qed.
Lemma lane_word3 (K : vec -> vec -> vec -> vec) (g : Z -> Z -> Z -> Z) :
  (forall k a b c x y z, k < ext X -> L X k a x -> L X k b y -> L X k c z -> L X k (K a b c) (g x y z)) -> forall x y z, word w x -> word w y -> word w z -> word w (g x y z).
Proof.
  intros H x y z Hx Hy Hz. pose proof (ext_pos HX) as He. exact (L_word (H 0 _ _ _ _ _ _ He (@l_fill X 0 x He Hx) (@l_fill X 0 y He Hy) (@l_fill X 0 z He Hz))).
Qed.
Lemma lane_word2 (K : vec -> vec -> vec) (g : Z -> Z -> Z) :
  (forall k a b x y, k < ext X -> L X k a x -> L X k b y -> L X k (K a b) (g x y)) -> forall x y, word w x -> word w y -> word w (g x y).
Proof. intros H x y Hx Hy. pose proof (ext_pos HX) as He. exact (L_word (H 0 _ _ _ _ He (@l_fill X 0 x He Hx) (@l_fill X 0 y He Hy))). Qed.
Lemma k3_each (K : vec -> vec -> vec -> vec) (g : Z -> Z -> Z -> Z) a b c (P : Z -> Z -> Z -> Z -> Prop) :
  (forall k a b c x y z, k < ext X -> L X k a x -> L X k b y -> L X k c z -> L X k (K a b c) (g x y z)) -> shaped X a -> shaped X b -> shaped X c ->
  (forall x y z, word (fw f) x -> word (fw f) y -> word (fw f) z -> P x y z (g x y z)) -> each3 X a b c (vz3 X (fun a b c => Ok (K a b c)) a b c) P.
Proof.
  intros L1 Ha Hb Hc H. rewrite <- (xw_fw HX HF) in H. assert (M1 := kernel3L K g L1). pose proof (lane_word3 K g L1) as W1.
  destruct (@vz3_spec X (fun a b c => Ok (K a b c)) g a b c HX Ha Hb Hc) as (v & -> & S & E); auto. { intros. now rewrite M1. }
  exists v. split; auto. split; auto. rewrite E. intros i x y z Hx Hy Hz. exists (g x y z). split. now apply nth_error_vmap3.
  apply H; [exact (el_word _ Ha Hx)|exact (el_word _ Hb Hy)|exact (el_word _ Hc Hz)].
Qed.
Lemma k2_each (K : vec -> vec -> vec) (g : Z -> Z -> Z) a b (P : Z -> Z -> Z -> Prop) :
  (forall k a b x y, k < ext X -> L X k a x -> L X k b y -> L X k (K a b) (g x y)) -> shaped X a -> shaped X b ->
  (forall x y, word (fw f) x -> word (fw f) y -> P x y (g x y)) -> each2 X a b (vz2 X (fun a b => Ok (K a b)) a b) P.
Proof.
  intros L1 Ha Hb H. rewrite <- (xw_fw HX HF) in H. assert (M1 := kernel2L HX K g L1). pose proof (lane_word2 K g L1) as W1.
  eapply (map2_each HX Ha Hb); [|exact H]. apply vz2_map; auto. intros. now rewrite M1.
Qed.

Definition fmadd1 (fm : bool) (a b c : Z) : Z := if fm then ffma nn f a b c else fadd nn f (fmul nn f a b) c.
Definition fmsub1 (fm : bool) (a b c : Z) : Z := if fm then ffma nn f a b (fneg (fw f) c) else fsub nn f (fmul nn f a b) c.
Definition fnmadd1 (fm : bool) (a b c : Z) : Z := if fm then ffma nn f (fneg (fw f) a) b c else fsub nn f c (fmul nn f a b).
Definition fnmsub1 (fm : bool) (a b c : Z) : Z := if fm then ffma nn f (fneg (fw f) a) b (fneg (fw f) c) else fsub nn f 0 (fadd nn f (fmul nn f a b) c).
Lemma fma_w a b c : word w (ffma nn f a b c). Proof. rewrite (xw_fw HX HF). apply ffma_word. Qed.
Lemma l_fmadd fm k a b c x y z : k < ext X -> L X k a x -> L X k b y -> L X k c z -> L X k (v_fmadd X fm nn a b c) (fmadd1 fm x y z).
Proof.
  intros Hk Hx Hy Hz. unfold v_fmadd, fmadd1. destruct fm; [apply l_vmap3; auto using fma_w|]. exact (lf_add HX HF nn (lf_mul HX HF nn Hx Hy) Hz).
Qed.
Lemma l_fmsub fm k a b c x y z : k < ext X -> L X k a x -> L X k b y -> L X k c z -> L X k (v_fmsub X fm nn a b c) (fmsub1 fm x y z).
Proof.
  intros Hk Hx Hy Hz. unfold v_fmsub, fmsub1. rewrite <- (xw_fw HX HF). destruct fm; [apply (@l_vmap3 k (fun a b c => ffma nn f a b (fneg w c))); auto using fma_w|]. exact (lf_sub HX HF nn (lf_mul HX HF nn Hx Hy) Hz).
Qed.
Lemma l_fnmadd fm k a b c x y z : k < ext X -> L X k a x -> L X k b y -> L X k c z -> L X k (v_fnmadd X fm nn a b c) (fnmadd1 fm x y z).
Proof.
  intros Hk Hx Hy Hz. unfold v_fnmadd, fnmadd1. rewrite <- (xw_fw HX HF). destruct fm; [apply (@l_vmap3 k (fun a b c => ffma nn f (fneg w a) b c)); auto using fma_w|]. exact (lf_sub HX HF nn Hz (lf_mul HX HF nn Hx Hy)).
Qed.
Lemma l_fnmsub fm k a b c x y z : k < ext X -> L X k a x -> L X k b y -> L X k c z -> L X k (v_fnmsub X fm nn a b c) (fnmsub1 fm x y z).
Proof.
  intros Hk Hx Hy Hz. unfold v_fnmsub, fnmsub1. rewrite <- (xw_fw HX HF). destruct fm; [apply (@l_vmap3 k (fun a b c => ffma nn f (fneg w a) b (fneg w c))); auto using fma_w|].
  exact (lf_sub HX HF nn (l_zero HX Hk) (lf_add HX HF nn (lf_mul HX HF nn Hx Hy) Hz)).
Qed.
Definition fdim1 (a b : Z) : Z := f_max (fw f) 0 (fsub nn f a b).
Lemma l_fdim k a b x y : k < ext X -> L X k a x -> L X k b y -> L X k (v_fdim X nn a b) (fdim1 x y).
Proof.
  intros Hk Hx Hy. unfold v_fdim, fdim1, v_max. destruct (ek (xT X)) eqn:EK; [unfold is_int in HF; rewrite EK in HF; discriminate|]. rewrite <- (xw_fw HX HF).
  apply (@l_vmap2 X k (f_max w)); [intros; unfold f_max; destruct (flt _ _ _); auto|apply l_zero; auto|exact (lf_sub HX HF nn Hx Hy)].
Qed.
Definition lerp1 (fm : bool) (a b t : Z) : Z := fmadd1 fm (fsub nn f b a) t a.
Lemma l_lerp fm k a b c x y z : k < ext X -> L X k a x -> L X k b y -> L X k c z -> L X k (v_lerp X fm nn a b c) (lerp1 fm x y z).
Proof. intros Hk Hx Hy Hz. unfold v_lerp, lerp1. apply l_fmadd; auto. exact (lf_sub HX HF nn Hy Hx). Qed.
End K3.

(** *** Elements *)
Lemma infs_nz f s : infs f s <> 0%Z.
Proof. destruct f, s; vm_compute; discriminate. Qed.
Section Elem.
Context {f : fmt} (nn : nans).
Local Notation W := (fw f).
Lemma nfin_val x : isfin f x = false -> val f x = 0%R.
Proof. unfold isfin, val. destruct (dec f x); cbn; auto; discriminate. Qed.
Lemma fneg_ok x : word W x -> word W (fneg W x) /\ isfin f (fneg W x) = isfin f x /\ val f (fneg W x) = (- val f x)%R /\ fsign W (fneg W x) = negb (fsign W x).
Proof.
  intros Hx. unfold fneg. assert (E := neg_lane Hx). pose proof (fmag_range (f := f) x) as R. assert (P : (0 < 2 ^ (W - 1))%Z) by (destruct f; reflexivity). assert (P2 : (2 ^ W = 2 * 2 ^ (W - 1))%Z) by (destruct f; reflexivity).
  set (y := Z.lxor x (2 ^ (W - 1))) in *. assert (Wy : word W y) by (unfold word; rewrite E; destruct (negb _); lia).
  assert (Sy : fsign W y = negb (fsign W x)) by (unfold fsign at 1; rewrite E; destruct (negb _); lia).
  assert (My : fmag W y = fmag W x). { pose proof (word_split Wy) as [Ry Ey]. rewrite Sy in Ey. rewrite E in Ey at 1. destruct (negb _); lia. }
  assert (Fy : isfin f y = isfin f x) by (rewrite (isfin_spec Wy), (isfin_spec Hx), My; reflexivity).
  split; auto. split; auto. split; auto. destruct (isfin f x) eqn:Fx.
  - rewrite (val_mag Wy Fy), (val_mag Hx Fx), My, Sy. destruct (fsign W x); cbn [negb]; ring.
  - rewrite !nfin_val by auto. ring.
Qed.
Lemma fma_ok a b c : word W a -> word W b -> word W c -> fin3 f a b c -> correct_round f (val f a * val f b + val f c) (ffma nn f a b c).
Proof.
  intros Ha Hb Hc (Fa & Fb & Fc). unfold correct_round. destruct (Rlt_bool_spec (Rabs (rnd f (val f a * val f b + val f c))) (bpow radix2 (emax f))) as [H|H].
  - destruct (@ffma_fin nn f a b c Ha Hb Hc Fa Fb Fc H) as (V & F). auto.
  - now apply ffma_ovf.
Qed.
End Elem.

(** *** fma *)
(** On builds with FMA every variant rounds once. *)
Theorem C44_fma_fused_partial : forall nn X a b c, xty_ok X -> is_int (xT X) = false -> shaped X a -> shaped X b -> shaped X c ->
  let f := xf X in
  each3 X a b c (x_fma X true nn a b c) (fun a b c y => fin3 f a b c -> correct_round f (val f a * val f b + val f c) y) /\
  each3 X a b c (x_fmsub X true nn a b c) (fun a b c y => fin3 f a b c -> correct_round f (val f a * val f b - val f c) y) /\
  each3 X a b c (x_fnmadd X true nn a b c) (fun a b c y => fin3 f a b c -> correct_round f (- (val f a * val f b) + val f c) y) /\
  each3 X a b c (x_fnmsub X true nn a b c) (fun a b c y => fin3 f a b c -> correct_round f (- (val f a * val f b) - val f c) y).
Proof.
  intros nn X a b c HX HF Ha Hb Hc f.
  split; [|split; [|split]].
  - apply (@k3_each X HX HF (v_fmadd X true nn) (fmadd1 (X := X) nn true)); auto. { intros. now apply l_fmadd. } intros x y z Hx Hy Hz F. exact (fma_ok nn Hx Hy Hz F).
  - apply (@k3_each X HX HF (v_fmsub X true nn) (fmsub1 (X := X) nn true)); auto. { intros. now apply l_fmsub. } intros x y z Hx Hy Hz (F1 & F2 & F3). destruct (fneg_ok Hz) as (Wz & Fz & Vz & _).
    unfold Rminus. fold f in Vz. rewrite <- Vz. apply (fma_ok nn Hx Hy Wz). split; [exact F1|split; [exact F2|exact (eq_trans Fz F3)]].
  - apply (@k3_each X HX HF (v_fnmadd X true nn) (fnmadd1 (X := X) nn true)); auto. { intros. now apply l_fnmadd. } intros x y z Hx Hy Hz (F1 & F2 & F3). destruct (fneg_ok Hx) as (Wz & Fz & Vz & _).
    rewrite <- Ropp_mult_distr_l_reverse. fold f in Vz. rewrite <- Vz. apply (fma_ok nn Wz Hy Hz). split; [exact (eq_trans Fz F1)|split; [exact F2|exact F3]].
  - apply (@k3_each X HX HF (v_fnmsub X true nn) (fnmsub1 (X := X) nn true)); auto. { intros. now apply l_fnmsub. } intros x y z Hx Hy Hz (F1 & F2 & F3). destruct (fneg_ok Hx) as (Wx & Fx & Vx & _). destruct (fneg_ok Hz) as (Wz & Fz & Vz & _).
    unfold Rminus. rewrite <- Ropp_mult_distr_l_reverse. fold f in Vz, Vx. rewrite <- Vz, <- Vx. apply (fma_ok nn Wx Hy Wz). split; [exact (eq_trans Fx F1)|split; [exact F2|exact (eq_trans Fz F3)]].
Qed.
Print Assumptions C44_fma_fused_partial.
Example C44_fma_fused_case : xty_ok (f4 haswell) /\   (* (1 + 2^-23)^2 - (1 + 2^-22) = 2^-46 *)
  x_fma (f4 haswell) true nans0 [[0x3f800001; 0; 0; 0]]%Z [[0x3f800001; 0; 0; 0]]%Z [[0xbf800002; 0; 0; 0]]%Z = Ok [[0x28800000; 0; 0; 0]]%Z.
Proof. split; [xok|vm_compute; reflexivity]. Qed.
(** Without FMA: right when the product is exact (and does not overflow). *)
Theorem C44_fma_unfused_partial : forall nn X a b c, xty_ok X -> is_int (xT X) = false -> shaped X a -> shaped X b -> shaped X c ->
  let f := xf X in
  each3 X a b c (x_fma X false nn a b c) (fun a b c y => fin3 f a b c -> rnd f (val f a * val f b) = (val f a * val f b)%R ->
    (Rabs (val f a * val f b) < bpow radix2 (emax f))%R -> (Rabs (rnd f (val f a * val f b + val f c)) < bpow radix2 (emax f))%R -> correct_round f (val f a * val f b + val f c) y).
Proof.
  intros nn X a b c HX HF Ha Hb Hc f. apply (@k3_each X HX HF (v_fmadd X false nn) (fmadd1 (X := X) nn false)); auto. { intros. now apply l_fmadd. }
  intros x y z Hx Hy Hz (F1 & F2 & F3) E B1 B2. unfold fmadd1. fold f. fold f in Hx, Hy, Hz. rewrite <- E in B1. destruct (@fmul_fin nn f x y Hx Hy F1 F2 B1) as (V & Fm & _). rewrite E in V.
  rewrite <- V in B2 |- *. destruct (@fadd_fin nn f (fmul nn f x y) z (@fmul_word nn f x y) Hz Fm F3 B2) as (V' & F' & _). unfold correct_round. rewrite Rlt_bool_true by exact B2. auto.
Qed.
Print Assumptions C44_fma_unfused_partial.
Example C44_fma_unfused_case : x_fma (f4 sse4) false nans0 [[0x40400000; 0; 0; 0]]%Z [[0x40000000; 0; 0; 0]]%Z [[0x3f800000; 0; 0; 0]]%Z = Ok [[0x40e00000; 0; 0; 0]]%Z.   (* 3 * 2 + 1 *)
Proof. vm_compute. reflexivity. Qed.
(** Without FMA, a single rounding is not what is computed: (1 + u)^2 - (1 + 2u) = u^2 gives 0. *)
Theorem C44_fma_unfused_refuted : forall nn X, xty_ok X -> is_int (xT X) = false ->
  exists a b c, shaped X a /\ shaped X b /\ shaped X c /\
    each3 X a b c (x_fma X false nn a b c) (fun a b c y => fin3 (xf X) a b c /\ y = 0%Z /\ ~ correct_round (xf X) (val (xf X) a * val (xf X) b + val (xf X) c) y).
Proof.
  intros nn X HX HF. set (f := xf X). set (x := (fone (fw f) + 1)%Z). set (z := (fone (fw f) + 2 + 2 ^ (fw f - 1))%Z).
  assert (Wx : word (fw f) x) by (unfold x, word; destruct f; cbn; lia). assert (Wz : word (fw f) z) by (unfold z, word; destruct f; cbn; lia).
  destruct (@fill_ok X HX HF x Wx) as [Sx Ax]. destruct (@fill_ok X HX HF z Wz) as [Sz Az].
  exists (repeat (v_fill X x) (dsz X)), (repeat (v_fill X x) (dsz X)), (repeat (v_fill X z) (dsz X)). split; auto. split; auto. split; auto.
  destruct (@k3_each X HX HF (v_fmadd X false nn) (fmadd1 (X := X) nn false) _ _ _ (fun a b c y => y = fmadd1 (X := X) nn false a b c) ltac:(intros; now apply l_fmadd) Sx Sx Sz (fun _ _ _ _ _ _ => eq_refl)) as (v & B1 & B2 & B3).
  exists v. split; auto. split; auto. intros i a b c Ha Hb Hc. destruct (B3 i a b c Ha Hb Hc) as (t & T1 & T2). exists t. split; auto. rewrite (Ax _ _ Ha), (Ax _ _ Hb), (Az _ _ Hc) in *.
  assert (F3 : fin3 f x x z) by (unfold fin3, x, z; destruct f; vm_compute; auto). split; auto.
  assert (T0 : t = 0%Z). { rewrite T2. unfold fmadd1. fold f. unfold x, z. clear. destruct nn, f; vm_compute; reflexivity. }
  split; auto. rewrite T0. intros C. assert (Q := fma_ok nn Wx Wx Wz F3). unfold correct_round in C, Q. revert C Q.
  assert (NZ : isfin f (ffma nn f x x z) = true /\ (fmag (fw f) (ffma nn f x x z) =? 0)%Z = false) by (unfold x, z; clear; destruct nn, f; vm_compute; auto).
  destruct NZ as [NF NZ]. destruct (Rlt_bool _ _).
  - intros (_ & C) (_ & Q). assert (V0 : val f (ffma nn f x x z) = 0%R) by (rewrite Q, <- C; destruct f; cbn; ring). apply (val_zero f (@ffma_word nn f x x z) NF) in V0. lia.
  - intros C. exfalso. exact (infs_nz _ _ (eq_sym C)).
Qed.
Print Assumptions C44_fma_unfused_refuted.

(** *** fdim *)
Lemma rnd_plus_nz f x y : generic_format radix2 (SpecFloat.fexp (prec f) (emax f)) x -> generic_format radix2 (SpecFloat.fexp (prec f) (emax f)) y -> (x + y <> 0)%R -> rnd f (x + y) <> 0%R.
Proof.
  intros Hx Hy. unfold rnd. pose proof (fexp_correct (prec f) (emax f) (Hprec f)) as Vx. pose proof (fexp_monotone (prec f) (emax f)) as Mx.
  apply round_plus_neq_0; try typeclasses eauto; auto.
Qed.
Lemma rnd_0 f : rnd f 0 = 0%R.
Proof. unfold rnd. apply round_0. typeclasses eauto. Qed.
Lemma fdim_ok {f} nn a b : word (fw f) a -> word (fw f) b -> isfin f a = true -> isfin f b = true ->
  let y := f_max (fw f) 0 (fsub nn f a b) in
  ((val f b < val f a)%R -> correct_round f (val f a - val f b) y) /\
  ((val f a <= val f b)%R -> y = if (a =? szero f true)%Z && (b =? szero f false)%Z then szero f true else szero f false).
Proof.
  intros Ha Hb Fa Fb y. assert (W0 : word (fw f) 0) by (destruct f; unfold word; cbn; lia). assert (F0 : isfin f 0 = true) by (destruct f; reflexivity). assert (V0 : val f 0 = 0%R) by (destruct f; cbn; ring).
  assert (Z0 : szero f false = 0%Z) by (destruct f; reflexivity).
  set (d := fsub nn f a b) in *. assert (Wd : word (fw f) d) by apply fsub_word.
  destruct (Rlt_le_dec (Rabs (rnd f (val f a - val f b))) (bpow radix2 (emax f))) as [B|B].
  - destruct (@fsub_fin nn f a b Ha Hb Fa Fb B) as (V & F & S). fold d in V, F, S.
    assert (Ey : y = if Rlt_bool (val f d) 0 then 0%Z else d) by (unfold y, f_max; rewrite (flt_val (f := f) Wd W0 F F0), V0; reflexivity).
    split; intros H.
    + assert (0 <= val f d)%R by (rewrite V, <- (rnd_0 f); apply rnd_mono; lra).
      rewrite Ey, Rlt_bool_false by auto. unfold correct_round. rewrite Rlt_bool_true by exact B. auto.
    + destruct (Rlt_le_dec (val f d) 0) as [N|N].
      { rewrite Ey, Rlt_bool_true, Z0 by auto. destruct (Z.eqb_spec a (szero f true)) as [Ea|_]; [|reflexivity]. destruct (Z.eqb_spec b 0) as [Eb|_]; [|reflexivity]. exfalso.
        assert (val f a = 0%R /\ val f b = 0%R) as [Q1 Q2] by (rewrite Ea, Eb; clear; destruct f; cbn; split; ring). rewrite V, Q1, Q2, Rminus_0_r, rnd_0 in N. lra. }
      rewrite Ey, Rlt_bool_false by auto.
      assert (E : val f a = val f b). {
        destruct (Rle_lt_or_eq_dec _ _ H) as [L|L]; auto. exfalso.
        assert (rnd f (val f a - val f b) <> 0)%R. { unfold Rminus. apply rnd_plus_nz; [apply fmt_val|apply generic_format_opp; apply fmt_val|lra]. }
        assert (rnd f (val f a - val f b) <= 0)%R by (rewrite <- (rnd_0 f); apply rnd_mono; lra). rewrite V in N. lra. }
      rewrite E in V, S. replace (val f b - val f b)%R with 0%R in V, S by ring. rewrite Rcompare_Eq in S by reflexivity.
      assert (Vd : val f d = 0%R) by (rewrite V; apply rnd_0).
      apply (val_zero f Wd F) in Vd. pose proof (word_split Wd) as [_ Ed]. rewrite Vd in Ed.
      assert (Ed' : d = szero f (fsign (fw f) d)) by (rewrite Ed at 1; clear; destruct f, (fsign _ d); reflexivity). rewrite Ed', S.
      destruct (fsign (fw f) a) eqn:Sa; cbn [andb].
      * destruct (fsign (fw f) b) eqn:Sb; cbn [negb].
        { destruct (Z.eqb_spec b (szero f false)) as [Eb|_]; [|rewrite andb_false_r; reflexivity]. exfalso. rewrite Eb in Sb. revert Sb. clear. destruct f; vm_compute; discriminate. }
        assert (P : (val f a = 0)%R). { pose proof (val_mag Ha Fa) as Pa. pose proof (val_mag Hb Fb) as Pb. rewrite Sa in Pa. rewrite Sb in Pb. assert (0 <= mval f (fmag (fw f) a))%R by apply mval_nonneg. assert (0 <= mval f (fmag (fw f) b))%R by apply mval_nonneg. lra. }
        assert (Pb : (val f b = 0)%R) by lra. apply (val_zero f Ha Fa) in P. apply (val_zero f Hb Fb) in Pb.
        pose proof (word_split Ha) as [_ Ea]. pose proof (word_split Hb) as [_ Eb]. rewrite P, Sa in Ea. rewrite Pb, Sb in Eb.
        replace (a =? szero f true)%Z with true by (symmetry; rewrite Ea; clear; destruct f; reflexivity). replace (b =? szero f false)%Z with true by (symmetry; rewrite Eb; clear; destruct f; reflexivity). reflexivity.
      * destruct (Z.eqb_spec a (szero f true)) as [Ea|_]; [|reflexivity]. exfalso. rewrite Ea in Sa. revert Sa. clear. destruct f; vm_compute; discriminate.
  - destruct (@fsub_ovf nn f a b Ha Hb Fa Fb B) as (V & S). fold d in V.
    assert (Pa : (0 <= mval f (fmag (fw f) a))%R) by apply mval_nonneg. assert (Pb : (0 <= mval f (fmag (fw f) b))%R) by apply mval_nonneg.
    pose proof (val_mag Ha Fa) as Va. pose proof (val_mag Hb Fb) as Vb. unfold y, f_max. rewrite V.
    split; intros H.
    + assert (Sa : fsign (fw f) a = false). { destruct (fsign (fw f) a) eqn:Sa; auto. exfalso. assert (Sb : fsign (fw f) b = false) by (destruct (fsign (fw f) b); auto; discriminate). rewrite Sb in Vb. lra. }
      rewrite Sa. replace (flt (fw f) (infs f false) 0) with false by (clear; destruct f; reflexivity). unfold correct_round. rewrite Rlt_bool_false by exact B. rewrite Rlt_bool_false by lra. reflexivity.
    + destruct (fsign (fw f) a) eqn:Sa.
      { replace (flt (fw f) (infs f true) 0) with true by (clear; destruct f; reflexivity). rewrite Z0. destruct (Z.eqb_spec a (szero f true)) as [Ea|_]; [|reflexivity]. destruct (Z.eqb_spec b 0) as [Eb|_]; [|reflexivity]. exfalso.
        assert (val f a = 0%R /\ val f b = 0%R) as [Q1 Q2] by (rewrite Ea, Eb; clear; destruct f; cbn; split; ring). rewrite Q1, Q2, Rminus_0_r, rnd_0, Rabs_R0 in B. pose proof (bpow_gt_0 radix2 (emax f)). lra. }
      exfalso. assert (Sb : fsign (fw f) b = true) by (destruct (fsign (fw f) b); auto; discriminate). rewrite Sb in Vb. assert (Ez : (val f a - val f b = 0)%R) by lra. rewrite Ez, rnd_0, Rabs_R0 in B. pose proof (bpow_gt_0 radix2 (emax f)). lra.
Qed.
(** The exact difference rounded once when a > b; +0 when a <= b, except that fdim(-0, +0) = -0. *)
Theorem C44_fdim_partial : forall nn X a b, xty_ok X -> is_int (xT X) = false -> shaped X a -> shaped X b ->
  let f := xf X in
  each2 X a b (x_fdim X nn a b) (fun a b y => isfin f a = true -> isfin f b = true ->
    ((val f b < val f a)%R -> correct_round f (val f a - val f b) y) /\
    ((val f a <= val f b)%R -> ~ (a = szero f true /\ b = szero f false) -> y = szero f false)).
Proof.
  intros nn X a b HX HF Ha Hb f. apply (@k2_each X HX HF (v_fdim X nn) (fdim1 (X := X) nn)); auto. { intros. now apply l_fdim. }
  intros x y Hx Hy Fx Fy. destruct (@fdim_ok f nn x y Hx Hy Fx Fy) as [P Q]. split; [exact P|]. intros L N. unfold fdim1. fold f. rewrite (Q L).
  destruct (Z.eqb_spec x (szero f true)); [|reflexivity]. destruct (Z.eqb_spec y (szero f false)); [|reflexivity]. exfalso. auto.
Qed.
Print Assumptions C44_fdim_partial.
Example C44_fdim_case : xty_ok (f4 sse2) /\   (* fdim(3, 1) = 2, fdim(1, 3) = +0, fdim(max, -max) = inf *)
  x_fdim (f4 sse2) nans0 [[0x40400000; 0x3f800000; 0x7f7fffff; 0]]%Z [[0x3f800000; 0x40400000; 0xff7fffff; 0]]%Z = Ok [[0x40000000; 0; 0x7f800000; 0]]%Z.
Proof. split; [xok|vm_compute; reflexivity]. Qed.
(** With a scalar second operand. *)
Theorem C44_fdim_scalar_partial : forall nn X a b, xty_ok X -> is_int (xT X) = false -> shaped X a -> word (xw X) b ->
  let f := xf X in
  each1 X a (x_fdim_s X nn a b) (fun a y => isfin f a = true -> isfin f b = true ->
    ((val f b < val f a)%R -> correct_round f (val f a - val f b) y) /\
    ((val f a <= val f b)%R -> ~ (a = szero f true /\ b = szero f false) -> y = szero f false)).
Proof.
  intros nn X a b HX HF Ha Hb f. apply (@k_each X HX (fun a => v_fdim X nn a (v_fill X b)) (fun a => fdim1 (X := X) nn a b)); auto. { intros. apply l_fdim; auto. now apply l_fill. }
  rewrite (xw_fw HX HF) in Hb |- *. intros x Hx Fx Fy. destruct (@fdim_ok f nn x b Hx Hb Fx Fy) as [P Q]. split; [exact P|]. intros L N. unfold fdim1. fold f. rewrite (Q L).
  destruct (Z.eqb_spec x (szero f true)); [|reflexivity]. destruct (Z.eqb_spec b (szero f false)); [|reflexivity]. exfalso. auto.
Qed.
Print Assumptions C44_fdim_scalar_partial.
Example C44_fdim_scalar_case : x_fdim_s (f4 sse2) nans0 [[0x40400000; 0x3f800000; 0; 0]]%Z 0x3f800000 = Ok [[0x40000000; 0; 0; 0]]%Z.
Proof. vm_compute. reflexivity. Qed.
(** fdim(-0, +0) is -0 instead of +0. *)
Theorem C44_fdim_zero_refuted : forall nn X, xty_ok X -> is_int (xT X) = false ->
  exists a b, shaped X a /\ shaped X b /\ each2 X a b (x_fdim X nn a b) (fun a b y => isfin (xf X) a = true /\ isfin (xf X) b = true /\ (val (xf X) a <= val (xf X) b)%R /\ y = szero (xf X) true).
Proof.
  intros nn X HX HF. set (f := xf X).
  assert (Wx : word (fw f) (szero f true)) by (unfold word; destruct f; cbn; lia). assert (Wy : word (fw f) (szero f false)) by (unfold word; destruct f; cbn; lia).
  destruct (@fill_ok X HX HF _ Wx) as [Sx Ax]. destruct (@fill_ok X HX HF _ Wy) as [Sy Ay].
  eexists _, _. split; [exact Sx|]. split; [exact Sy|].
  destruct (@k2_each X HX HF (v_fdim X nn) (fdim1 (X := X) nn) _ _ (fun a b y => y = fdim1 (X := X) nn a b) ltac:(intros; now apply l_fdim) Sx Sy (fun _ _ _ _ => eq_refl)) as (v & B1 & B2 & B3).
  exists v. split; auto. split; auto. intros i a b Ha Hb. destruct (B3 i a b Ha Hb) as (t & T1 & T2). exists t. split; auto. rewrite (Ax _ _ Ha), (Ay _ _ Hb) in *.
  assert (F1 : isfin f (szero f true) = true) by (clear; destruct f; reflexivity). assert (F2 : isfin f (szero f false) = true) by (clear; destruct f; reflexivity).
  assert (V1 : val f (szero f true) = 0%R) by (clear; destruct f; cbn; ring). assert (V2 : val f (szero f false) = 0%R) by (clear; destruct f; cbn; ring).
  split; auto. split; auto. assert (Le : (val f (szero f true) <= val f (szero f false))%R) by lra. split; auto.
  rewrite T2. unfold fdim1. fold f. destruct (@fdim_ok f nn _ _ Wx Wy F1 F2) as [_ Q]. rewrite (Q Le), !Z.eqb_refl. reflexivity.
Qed.
Print Assumptions C44_fdim_zero_refuted.

(** *** lerp *)
Lemma fmadd1_ok {X} nn fm a b c : let f := xf X in word (fw f) a -> word (fw f) b -> word (fw f) c -> fin3 f a b c ->
  rnd f (val f a * val f b) = (val f a * val f b)%R -> (Rabs (val f a * val f b) < bpow radix2 (emax f))%R -> rnd f (val f a * val f b + val f c) = (val f a * val f b + val f c)%R ->
  (Rabs (val f a * val f b + val f c) < bpow radix2 (emax f))%R -> isfin f (fmadd1 (X := X) nn fm a b c) = true /\ val f (fmadd1 (X := X) nn fm a b c) = (val f a * val f b + val f c)%R.
Proof.
  intros f Ha Hb Hc (Fa & Fb & Fc) E1 B1 E2 B2. unfold fmadd1. fold f. rewrite <- E2 in B2. destruct fm.
  - destruct (@ffma_fin nn f a b c Ha Hb Hc Fa Fb Fc B2) as (V & F). rewrite E2 in V. auto.
  - rewrite <- E1 in B1. destruct (@fmul_fin nn f a b Ha Hb Fa Fb B1) as (V & Fm & _). rewrite E1 in V. rewrite <- V in B2, E2 |- *.
    destruct (@fadd_fin nn f (fmul nn f a b) c (@fmul_word nn f a b) Hc Fm Fc B2) as (V' & F' & _). rewrite E2 in V'. auto.
Qed.
(** lerp(a, b, +-0) is a (up to the sign of zero) for every finite a, b whose difference does not overflow, with and without FMA. *)
Theorem C44_lerp_zero_partial : forall nn X fm a b t, xty_ok X -> is_int (xT X) = false -> shaped X a -> shaped X b -> shaped X t ->
  let f := xf X in
  each3 X a b t (x_lerp X fm nn a b t) (fun a b t y => fin3 f a b t -> val f t = 0%R -> (Rabs (rnd f (val f b - val f a)) < bpow radix2 (emax f))%R -> isfin f y = true /\ val f y = val f a).
Proof.
  intros nn X fm a b c HX HF Ha Hb Hc f. apply (@k3_each X HX HF (v_lerp X fm nn) (lerp1 (X := X) nn fm)); auto. { intros. now apply l_lerp. }
  intros x y z Hx Hy Hz (F1 & F2 & F3) E B. unfold lerp1. fold f. destruct (@fsub_fin nn f y x Hy Hx F2 F1 B) as (V & F & _).
  assert (Q : (val f (fsub nn f y x) * val f z + val f x = val f x)%R) by (rewrite E; ring). assert (Q0 : (val f (fsub nn f y x) * val f z = 0)%R) by (rewrite E; ring). rewrite <- Q.
  apply (@fmadd1_ok X nn fm (fsub nn f y x) z x (@fsub_word nn f y x) Hz Hx (conj F (conj F3 F1))); fold f; rewrite ?Q, ?Q0.
  - apply rnd_0.
  - rewrite Rabs_R0. apply bpow_gt_0.
  - apply rnd_id. apply fmt_val.
  - apply val_lt_emax.
Qed.
Print Assumptions C44_lerp_zero_partial.
(** lerp(a, b, 1) is b for every finite a, b whose difference is representable, with and without FMA. *)
Theorem C44_lerp_one_partial : forall nn X fm a b t, xty_ok X -> is_int (xT X) = false -> shaped X a -> shaped X b -> shaped X t ->
  let f := xf X in
  each3 X a b t (x_lerp X fm nn a b t) (fun a b t y => fin3 f a b t -> val f t = 1%R -> rnd f (val f b - val f a) = (val f b - val f a)%R -> (Rabs (val f b - val f a) < bpow radix2 (emax f))%R -> isfin f y = true /\ val f y = val f b).
Proof.
  intros nn X fm a b c HX HF Ha Hb Hc f. apply (@k3_each X HX HF (v_lerp X fm nn) (lerp1 (X := X) nn fm)); auto. { intros. now apply l_lerp. }
  intros x y z Hx Hy Hz (F1 & F2 & F3) E R B. unfold lerp1. fold f. rewrite <- R in B. destruct (@fsub_fin nn f y x Hy Hx F2 F1 B) as (V & F & _).
  assert (Q0 : (val f (fsub nn f y x) * val f z = val f (fsub nn f y x))%R) by (rewrite E; ring).
  assert (Q : (val f (fsub nn f y x) * val f z + val f x = val f y)%R) by (rewrite Q0, V, R; ring). rewrite <- Q.
  apply (@fmadd1_ok X nn fm (fsub nn f y x) z x (@fsub_word nn f y x) Hz Hx (conj F (conj F3 F1))); fold f; rewrite ?Q, ?Q0.
  - apply rnd_id. apply fmt_val.
  - apply val_lt_emax.
  - apply rnd_id. apply fmt_val.
  - apply val_lt_emax.
Qed.
Print Assumptions C44_lerp_one_partial.
Example C44_lerp_case : xty_ok (f4 haswell) /\   (* a = 3, b = 5: t = 0, 1, 1/2 *)
  x_lerp (f4 haswell) true nans0 [[0x40400000; 0x40400000; 0x40400000; 0]]%Z [[0x40a00000; 0x40a00000; 0x40a00000; 0]]%Z [[0; 0x3f800000; 0x3f000000; 0]]%Z = Ok [[0x40400000; 0x40a00000; 0x40800000; 0]]%Z.
Proof. split; [xok|vm_compute; reflexivity]. Qed.
Lemma inf_zero_nan {X} nn fm s z c : let f := xf X in word (fw f) c -> fnan (fw f) (fmadd1 (X := X) nn fm (infs f s) (szero f z) c) = true.
Proof.
  intros f Hc. unfold fmadd1. fold f. destruct fm.
  - unfold ffma. rewrite fnan_enc, dec_infs, dec_szero. unfold Bfma. match goal with |- context [n3 nn f ?a ?b ?c] => destruct (n3 nn f a b c) as [y Hy] end. destruct y; try discriminate Hy. destruct (dec f c); reflexivity.
  - assert (Wm : word (fw f) (fmul nn f (infs f s) (szero f z))) by apply fmul_word. apply (@fadd_nan nn f _ _ Wm Hc). left. unfold fmul. rewrite fnan_enc, dec_infs, dec_szero. unfold Bmult, lift. match goal with |- context [n2 nn Omul f ?a ?b] => destruct (n2 nn Omul f a b) as [y Hy] end. destruct y; try discriminate Hy. reflexivity.
Qed.
(** lerp(a, b, +-0) is NaN for all finite a, b whose difference overflows. *)
Theorem C44_lerp_zero_overflow_refuted : forall nn X fm a b t, xty_ok X -> is_int (xT X) = false -> shaped X a -> shaped X b -> shaped X t ->
  let f := xf X in
  each3 X a b t (x_lerp X fm nn a b t) (fun a b t y => fin3 f a b t -> val f t = 0%R -> (bpow radix2 (emax f) <= Rabs (rnd f (val f b - val f a)))%R -> isnanb f y = true).
Proof.
  intros nn X fm a b c HX HF Ha Hb Hc f. apply (@k3_each X HX HF (v_lerp X fm nn) (lerp1 (X := X) nn fm)); auto. { intros. now apply l_lerp. }
  intros x y z Hx Hy Hz (F1 & F2 & F3) E B. unfold lerp1. fold f. destruct (@fsub_ovf nn f y x Hy Hx F2 F1 B) as (V & _). rewrite V.
  apply (val_zero f Hz F3) in E. pose proof (word_split Hz) as [_ Ez]. fold f in Ez. rewrite E in Ez. assert (Ez' : z = szero f (fsign (fw f) z)) by (rewrite Ez at 1; clear; destruct f, (fsign _ z); reflexivity). rewrite Ez'.
  rewrite isnan_spec. { apply inf_zero_nan. exact Hx. } unfold fmadd1. destruct fm; [apply ffma_word|apply fadd_word].
Qed.
Print Assumptions C44_lerp_zero_overflow_refuted.
(** lerp(a, b, 0) is NaN instead of a when b - a overflows (here a = -max, b = max); lerp(a, b, 1) is 0 instead of b = 1 when a is 2^(prec+1). *)
Theorem C44_lerp_refuted : forall nn X fm, xty_ok X -> is_int (xT X) = false -> let f := xf X in
  (exists a b t, shaped X a /\ shaped X b /\ shaped X t /\ each3 X a b t (x_lerp X fm nn a b t) (fun a b t y => fin3 f a b t /\ t = 0%Z /\ isnanb f y = true)) /\
  (exists a b t, shaped X a /\ shaped X b /\ shaped X t /\ each3 X a b t (x_lerp X fm nn a b t) (fun a b t y => fin3 f a b t /\ t = fone (fw f) /\ b = fone (fw f) /\ y = 0%Z)).
Proof.
  intros nn X fm HX HF f.
  assert (G : forall x y z (P : Z -> Z -> Z -> Z -> Prop), word (fw f) x -> word (fw f) y -> word (fw f) z -> P x y z (lerp1 (X := X) nn fm x y z) ->
    exists a b t, shaped X a /\ shaped X b /\ shaped X t /\ each3 X a b t (x_lerp X fm nn a b t) P). {
    intros x y z P Hx Hy Hz Hp. destruct (@fill_ok X HX HF x Hx) as [Sx Ax]. destruct (@fill_ok X HX HF y Hy) as [Sy Ay]. destruct (@fill_ok X HX HF z Hz) as [Sz Az].
    eexists _, _, _. split; [exact Sx|]. split; [exact Sy|]. split; [exact Sz|].
    destruct (@k3_each X HX HF (v_lerp X fm nn) (lerp1 (X := X) nn fm) _ _ _ (fun a b c y => y = lerp1 (X := X) nn fm a b c) ltac:(intros; now apply l_lerp) Sx Sy Sz (fun _ _ _ _ _ _ => eq_refl)) as (v & B1 & B2 & B3).
    exists v. split; auto. split; auto. intros i a b c Ha Hb Hc. destruct (B3 i a b c Ha Hb Hc) as (t & T1 & T2). exists t. split; auto. rewrite (Ax _ _ Ha), (Ay _ _ Hb), (Az _ _ Hc) in *. rewrite T2. exact Hp. }
  split.
  - set (m := (2 ^ (fw f - 1) - 2 ^ mw f - 1)%Z). apply (G (m + 2 ^ (fw f - 1))%Z m 0%Z); try (unfold word, m; clear; destruct f; cbn; lia).
    split; [unfold fin3, m; clear; destruct f; vm_compute; auto|]. split; auto. unfold lerp1. fold f. replace (fsub nn f m (m + 2 ^ (fw f - 1))) with (infs f false) by (unfold m; clear; destruct nn, f; vm_compute; reflexivity). replace 0%Z with (szero f false) by (clear; destruct f; reflexivity).
    rewrite isnan_spec; [apply inf_zero_nan; fold f; unfold word, m; clear; destruct f; cbn; lia|]. unfold fmadd1. destruct fm; [apply ffma_word|apply fadd_word].
  - apply (G (fone (fw f) + 2 ^ mw f * (mw f + 2))%Z (fone (fw f)) (fone (fw f))); try (unfold word; clear; destruct f; cbn; lia).
    split; [unfold fin3; clear; destruct f; vm_compute; auto|]. split; auto. split; auto. unfold lerp1, fmadd1. fold f. clear. destruct nn, fm, f; vm_compute; reflexivity.
Qed.
Print Assumptions C44_lerp_refuted.
