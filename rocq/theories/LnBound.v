(** Bounds of the real logarithm: Taylor's formula of ln (1 + t) with remainder, and its evaluation in fixed point (units of 2^-140). *)
From Coq Require Import ZArith Reals Lra Lia List Bool Ranalysis.
From Flocq Require Import Core.
From Verif Require Import Base Cxx Spec X86Vec X86 X86Lemmas X86Proofs Fp FpLemmas FpOps FMath FMathProofs FLane FFields PropManip PropLog FErr IvPoly TrigTab SinPoly.
Import ListNotations.
Open Scope Z_scope.

(** 1/k, 1/(k+1), ... (n coefficients) *)
Fixpoint invs (k : Z) (n : nat) : list R := match n with O => [] | S n => (1 / IZR k)%R :: invs (k + 1) n end.
(** sum_{k=1..n} s^k / k, the first terms of - ln (1 - s) *)
Definition lsum (n : nat) (s : R) : R := (s * hornerR (invs 1 n) s)%R.
(** sum_{j<n} s^j *)
Definition gsum (n : nat) (s : R) : R := hornerR (repeat 1%R n) s.
Lemma gsum_eq n s : ((1 - s) * gsum n s = 1 - s ^ n)%R.
Proof.
  induction n as [|n IH]; [unfold gsum; cbn; ring|]. unfold gsum in *. cbn [repeat hornerR fold_right]. change (fold_right (fun c acc => c + s * acc)%R 0%R (repeat 1%R n)) with (hornerR (repeat 1%R n) s).
  replace ((1 - s) * (1 + s * hornerR (repeat 1 n) s))%R with (1 - s + s * ((1 - s) * hornerR (repeat 1 n) s))%R by ring. rewrite IH. cbn [pow]. ring.
Qed.
(** s^k * sum_{j<n} s^j / (k + j) has derivative s^(k-1) * gsum n s *)
Lemma lsum_deriv n : forall k s, (0 < k)%nat -> derivable_pt_lim (fun s => (s ^ k * hornerR (invs (Z.of_nat k) n) s)%R) s (s ^ Nat.pred k * gsum n s)%R.
Proof.
  induction n as [|n IH]; intros k s Hk.
  - unfold gsum, invs, hornerR. cbn [fold_right repeat]. rewrite Rmult_0_r. eapply derivable_pt_lim_ext; [|apply (derivable_pt_lim_const 0)]. intros x. unfold fct_cte. ring.
  - cbn [invs]. assert (K : (0 < IZR (Z.of_nat k))%R) by (apply IZR_lt; lia).
    eapply derivable_pt_lim_ext with (f := (fun s => (/ IZR (Z.of_nat k)) * s ^ k + s ^ S k * hornerR (invs (Z.of_nat (S k)) n) s)%R).
    + intros x. replace (Z.of_nat k + 1) with (Z.of_nat (S k)) by lia. change (hornerR (1 / IZR (Z.of_nat k) :: invs (Z.of_nat (S k)) n)%R x) with (1 / IZR (Z.of_nat k) + x * hornerR (invs (Z.of_nat (S k)) n) x)%R. cbn [pow]. unfold Rdiv. ring.
    + replace (s ^ Nat.pred k * gsum (S n) s)%R with ((/ IZR (Z.of_nat k)) * (INR k * s ^ Nat.pred k) + s ^ Nat.pred (S k) * gsum n s)%R.
      * apply (derivable_pt_lim_plus (fun s => (/ IZR (Z.of_nat k)) * s ^ k)%R (fun s => s ^ S k * hornerR (invs (Z.of_nat (S k)) n) s)%R). 
        { apply (derivable_pt_lim_scal (fun s => s ^ k)%R). apply derivable_pt_lim_pow. } apply IH. lia.
      * unfold gsum. cbn [repeat]. change (hornerR (1%R :: repeat 1%R n) s) with (1 + s * hornerR (repeat 1 n) s)%R. rewrite INR_IZR_INZ, <- Rmult_assoc, Rinv_l by lra.
        replace (s ^ Nat.pred (S k))%R with (s * s ^ Nat.pred k)%R; [ring|]. destruct k; [lia|]. reflexivity.
Qed.
(** - ln (1 - s) = sum_{k=1..n} s^k / k + remainder *)
Theorem ln_taylor n s : (Rabs s < 1)%R -> (Rabs (- ln (1 - s) - lsum n s) <= Rabs s ^ S n / (1 - Rabs s))%R.
Proof.
  intros Hs. pose proof (Rabs_pos s) as P0.
  set (F := fun s => (- ln (1 - s) - lsum n s)%R).
  assert (D : forall c, (Rabs c < 1)%R -> derivable_pt_lim F c (c ^ n / (1 - c))%R).
  { intros c Hc. apply Rabs_def2 in Hc. unfold F. 
    replace (c ^ n / (1 - c))%R with (- (/ (1 - c) * (0 - 1)) - gsum n c)%R.
    - apply (derivable_pt_lim_minus (fun s => - ln (1 - s))%R (lsum n)).
      + apply (derivable_pt_lim_opp (fun s => ln (1 - s))%R). apply (derivable_pt_lim_comp (fun s => 1 - s)%R ln).
        * apply (derivable_pt_lim_minus (fun _ => 1)%R (fun s => s)). apply derivable_pt_lim_const. apply derivable_pt_lim_id.
        * apply derivable_pt_lim_ln. lra.
      + pose proof (lsum_deriv n 1 c ltac:(lia)) as L. cbn [Nat.pred] in L. rewrite pow_O, Rmult_1_l in L.
        eapply derivable_pt_lim_ext; [|exact L]. intros x. unfold lsum. rewrite pow_1. reflexivity.
    - apply Rmult_eq_reg_r with (1 - c)%R; [|lra]. unfold Rdiv. rewrite (Rmult_assoc (c ^ n)), Rinv_l by lra. rewrite Rmult_minus_distr_r. rewrite (Rmult_comm (gsum n c)), gsum_eq. field. lra. }
  assert (F0 : F 0%R = 0%R). { unfold F, lsum. rewrite Rminus_0_r, ln_1. ring. }
  change (- ln (1 - s) - lsum n s)%R with (F s).
  assert (B : forall c, (Rabs c <= Rabs s)%R -> (Rabs (c ^ n / (1 - c)) <= Rabs s ^ n / (1 - Rabs s))%R).
  { intros c Hc. unfold Rdiv. rewrite Rabs_mult, Rabs_inv, <- RPow_abs. apply Rmult_le_compat; try apply Rabs_pos.
    - apply pow_le. apply Rabs_pos.
    - left. apply Rinv_0_lt_compat. apply Rabs_pos_lt. intros E. assert (c = 1)%R by lra. subst c. rewrite Rabs_R1 in Hc. lra.
    - apply pow_incr. split; [apply Rabs_pos|exact Hc].
    - apply Rinv_le; [lra|]. apply Rle_trans with (1 - Rabs c)%R; [lra|]. pose proof (Rle_abs (1 - c)). pose proof (Rle_abs c). lra. }
  assert (Fin : forall c, F s = (c ^ n / (1 - c) * s)%R -> (Rabs c <= Rabs s)%R -> (Rabs (F s) <= Rabs s ^ S n / (1 - Rabs s))%R).
  { intros c E Hc. rewrite E, Rabs_mult. cbn [pow]. replace (Rabs s * Rabs s ^ n / (1 - Rabs s))%R with (Rabs s ^ n / (1 - Rabs s) * Rabs s)%R by (unfold Rdiv; ring). apply Rmult_le_compat_r; auto. }
  destruct (Rtotal_order s 0) as [L | [-> | G]].
  - destruct (MVT_cor2 F (fun c => c ^ n / (1 - c))%R s 0 L) as (c & E & C1 & C2).
    { intros c [C1 C2]. apply D. rewrite Rabs_left1 by lra. rewrite Rabs_left in Hs by lra. lra. }
    apply (Fin c). { rewrite F0 in E. lra. } rewrite !Rabs_left by lra. lra.
  - apply (Fin 0%R); [|lra]. rewrite F0. ring.
  - destruct (MVT_cor2 F (fun c => c ^ n / (1 - c))%R 0 s G) as (c & E & C1 & C2).
    { intros c [C1 C2]. apply D. rewrite Rabs_pos_eq by lra. rewrite Rabs_pos_eq in Hs by lra. lra. }
    apply (Fin c). { rewrite F0 in E. lra. } rewrite !Rabs_pos_eq by lra. lra.
Qed.

(** *** evaluation *)
Fixpoint invI (k : Z) (n : nat) : list (Z * Z) := match n with O => [] | S n => (S140 / k, S140 / k + 1) :: invI (k + 1) n end.
Lemma invI_ok n : forall k, 0 < k -> Forall2 iv (invI k n) (invs k n).
Proof. induction n as [|n IH]; intros k Hk; cbn [invI invs]; constructor; [now apply inv_iv|]. apply IH. lia. Qed.
(** the coefficients of p (- t) *)
Fixpoint altR (b : bool) (l : list R) : list R := match l with [] => [] | c :: l => (if b then - c else c)%R :: altR (negb b) l end.
Fixpoint altI (b : bool) (l : list (Z * Z)) : list (Z * Z) := match l with [] => [] | c :: l => (if b then ineg c else c) :: altI (negb b) l end.
Lemma alt_eq l : forall b t, (hornerR (altR b l) t = (if b then - 1 else 1) * hornerR l (- t))%R.
Proof.
  induction l as [|c l IH]; intros b t; cbn [altR]; [unfold hornerR; cbn; ring|]. change (hornerR (?x :: ?y) ?z) with (x + z * hornerR y z)%R.
  rewrite IH. change (hornerR (c :: l) (- t)) with (c + - t * hornerR l (- t))%R. destruct b; cbn [negb]; ring.
Qed.
Lemma altI_ok ps l : Forall2 iv ps l -> forall b, Forall2 iv (altI b ps) (altR b l).
Proof. induction 1; intros b; cbn [altI altR]; constructor; auto. destruct b; auto. now apply ineg_ok. Qed.
Fixpoint psubR (l m : list R) : list R := match l, m with [], _ => map Ropp m | _, [] => l | a :: l, b :: m => (a - b)%R :: psubR l m end.
Fixpoint psubI (l m : list (Z * Z)) : list (Z * Z) := match l, m with [], _ => map ineg m | _, [] => l | a :: l, b :: m => isubc a b :: psubI l m end.
Lemma hornerR_opp m t : (hornerR (map Ropp m) t = - hornerR m t)%R.
Proof. induction m as [|b m IH]; cbn [map]; [unfold hornerR; cbn; ring|]. change (hornerR (?x :: ?y) ?z) with (x + z * hornerR y z)%R. rewrite IH. ring. Qed.
Lemma psub_eq l : forall m t, (hornerR (psubR l m) t = hornerR l t - hornerR m t)%R.
Proof.
  induction l as [|a l IH]; intros m t. { cbn [psubR]. rewrite hornerR_opp. unfold hornerR at 2. cbn. ring. }
  destruct m as [|b m]; cbn [psubR]. { unfold hornerR at 3. cbn. ring. } change (hornerR (?x :: ?y) ?z) with (x + z * hornerR y z)%R. rewrite IH. ring.
Qed.
Lemma psubI_ok ps l : Forall2 iv ps l -> forall qs m, Forall2 iv qs m -> Forall2 iv (psubI ps qs) (psubR l m).
Proof.
  induction 1 as [|p r ps l Hp Hl IH]; intros qs m Hq. { cbn [psubI psubR]. induction Hq; cbn [map]; constructor; auto. now apply ineg_ok. }
  inversion Hq; subst; cbn [psubI psubR]; constructor; auto. now apply isubc_ok.
Qed.
(** an upper bound of (a 2^-140)^n *)
Fixpoint powU (a : Z) (n : nat) : Z := match n with O => S140 | S n => cd (a * powU a n) end.
Lemma powU_ok a n t : (0 <= t <= IZR a * UU)%R -> (0 <= t ^ n <= IZR (powU a n) * UU)%R.
Proof.
  intros Ht. split; [apply pow_le; lra|]. induction n as [|n IH]; cbn [pow powU]. { pose proof UU_inv as I. fold S140 in I. lra. }
  eapply Rle_trans; [|apply cd_ok]. rewrite mult_IZR. replace (IZR a * IZR (powU a n) * UU * UU)%R with ((IZR a * UU) * (IZR (powU a n) * UU))%R by ring.
  apply Rmult_le_compat; try lra. apply pow_le. lra.
Qed.
Lemma ln_rem n s a : (Rabs s <= IZR a * UU)%R -> (Rabs s <= / 2)%R -> (Rabs (- ln (1 - s) - lsum n s) <= IZR (2 * powU a (S n)) * UU)%R.
Proof.
  intros Ha Hs. pose proof (Rabs_pos s) as P0. eapply Rle_trans; [apply ln_taylor; lra|]. destruct (powU_ok a (S n) (Rabs s) (conj P0 Ha)) as [A B].
  rewrite mult_IZR. apply Rle_trans with (Rabs s ^ S n * 2)%R; [|lra]. apply Rmult_le_compat_l; auto. replace 2%R with (/ (/ 2))%R by lra. apply Rinv_le_contravar; lra.
Qed.
Definition widen (p : Z * Z) (e : Z) : Z * Z := (fst p - e, snd p + e).
Lemma widen_ok p r s e : iv p r -> (Rabs (s - r) <= IZR e * UU)%R -> iv (widen p e) s.
Proof. intros [A B] H. apply Rabs_le_inv in H. unfold iv, widen. cbn [fst snd]. rewrite minus_IZR, plus_IZR, Rmult_minus_distr_r, Rmult_plus_distr_r. lra. Qed.
(** ln of a multiple z of 2^-140 between 1/2 and 3/2 *)
Definition lnJ (l m : list (Z * Z)) (n : nat) (z : Z) : Z * Z :=
  let s := S140 - z in
  if 0 <=? s then widen (ineg (imul s s (ihorner s s l))) (2 * powU s (S n))
  else widen (imul (- s) (- s) (ihorner (- s) (- s) m)) (2 * powU (- s) (S n)).
Definition lnI (n : nat) (z : Z) : Z * Z := lnJ (invI 1 n) (altI false (invI 1 n)) n z.
(** the coefficients for 60 terms, computed once *)
Definition inv60 : list (Z * Z) := Eval vm_compute in invI 1 60.
Definition alt60 : list (Z * Z) := Eval vm_compute in altI false (invI 1 60).
Lemma lnI_60 z : lnI 60 z = lnJ inv60 alt60 60 z.
Proof. unfold lnI. replace (invI 1 60) with inv60 by (vm_compute; reflexivity). replace (altI false inv60) with alt60 by (vm_compute; reflexivity). reflexivity. Qed.
Theorem lnI_ok n z : S140 <= 2 * z <= 3 * S140 -> iv (lnI n z) (ln (IZR z * UU)).
Proof.
  intros Hz. pose proof UU_pos as UP. pose proof UU_inv as I. fold S140 in I. set (s := (IZR (S140 - z) * UU)%R).
  assert (E : (IZR z * UU = 1 - s)%R) by (unfold s; rewrite minus_IZR, Rmult_minus_distr_r; lra).
  assert (Hs : (Rabs s <= / 2)%R).
  { apply Rabs_le. unfold s. rewrite minus_IZR, Rmult_minus_distr_r, I. destruct Hz as [A B]. apply IZR_le in A, B. rewrite !mult_IZR in *. apply Rmult_le_compat_r with (r := UU) in A, B; lra. }
  rewrite E. unfold lnI, lnJ. cbv zeta. destruct (Z.leb_spec 0 (S140 - z)) as [L|L].
  - apply widen_ok with (- lsum n s)%R.
    + apply ineg_ok. unfold lsum. apply imul_ok; auto; [unfold s; lra|]. apply ihorner_ok; auto; [unfold s; lra|]. apply invI_ok. lia.
    + replace (ln (1 - s) - - lsum n s)%R with (- (- ln (1 - s) - lsum n s))%R by ring. rewrite Rabs_Ropp. apply ln_rem; auto. rewrite Rabs_pos_eq; [unfold s; lra|]. unfold s. apply Rmult_le_pos; [apply IZR_le; exact L|lra].
  - apply widen_ok with (- lsum n s)%R.
    + unfold lsum. replace (- (s * hornerR (invs 1 n) s))%R with ((- s) * hornerR (altR false (invs 1 n)) (- s))%R by (rewrite alt_eq, Ropp_involutive; ring).
      assert (Q : (IZR (- (S140 - z)) * UU <= - s <= IZR (- (S140 - z)) * UU)%R) by (unfold s; rewrite opp_IZR; lra).
      apply imul_ok; auto; [lia|]. apply ihorner_ok; auto; [lia|]. apply altI_ok. apply invI_ok. lia.
    + replace (ln (1 - s) - - lsum n s)%R with (- (- ln (1 - s) - lsum n s))%R by ring. rewrite Rabs_Ropp. apply ln_rem; auto. apply IZR_lt in L. unfold s in *. rewrite Rabs_left1 by (apply Rmult_lt_compat_r with (r := UU) in L; lra). rewrite opp_IZR. lra.
Qed.
(** ln 2 = - ln (1/2) *)
Definition ln2I : Z * Z := Eval vm_compute in ineg (lnI 150 (2 ^ 139)).
Lemma ln2_ok : iv ln2I (ln 2).
Proof.
  replace ln2I with (ineg (lnI 150 (2 ^ 139))) by (vm_compute; reflexivity). replace (ln 2) with (- ln (IZR (2 ^ 139) * UU))%R.
  - apply ineg_ok. apply lnI_ok. vm_compute. split; discriminate.
  - replace (IZR (2 ^ 139) * UU)%R with (/ 2)%R. { rewrite ln_Rinv by lra. ring. } pose proof UU_inv as I. replace (2 ^ 140) with (2 * 2 ^ 139) in I by reflexivity. rewrite mult_IZR in I. lra.
Qed.
Lemma ln2_gap : snd ln2I - fst ln2I <= 400. Proof. vm_compute. discriminate. Qed.
(** a polynomial r * c(r) against ln (1 + r) on |r| <= n h 2^-140 <= 1/2: [cs] are the coefficients of c, N the length of the series *)
Definition lnpI (N : nat) (cs : list (Z * Z)) : list (Z * Z) := psubI cs (altI false (invI 1 N)).
Theorem lnp_ok N n h B cs c r : Forall2 iv cs c -> isub n h B (lnpI N cs) = true -> isub n h B (altI false (lnpI N cs)) = true -> 0 <= h -> (0 < n)%nat -> 2 * (Z.of_nat n * h) <= S140 ->
  (Rabs r <= IZR (Z.of_nat n * h) * UU)%R -> (Rabs (r * hornerR c r - ln (1 + r)) <= IZR (cd (Z.of_nat n * h * B) + 2 * powU (Z.of_nat n * h) (S N)) * UU)%R.
Proof.
  intros Hc I1 I2 Hh Hn Hs Hr. pose proof UU_pos as UP. pose proof UU_inv as I. fold S140 in I. set (a := Z.of_nat n * h) in *.
  assert (H2 : (Rabs (- r) <= / 2)%R). { rewrite Rabs_Ropp. eapply Rle_trans; [exact Hr|]. apply IZR_le in Hs. rewrite mult_IZR in Hs. apply Rmult_le_compat_r with (r := UU) in Hs; lra. }
  assert (H1 : (Rabs (- r) <= IZR a * UU)%R) by (rewrite Rabs_Ropp; exact Hr).
  pose proof (ln_rem N (- r) a H1 H2) as R0. replace (1 - - r)%R with (1 + r)%R in R0 by ring.
  assert (L : (lsum N (- r) = - (r * hornerR (altR false (invs 1 N)) r))%R) by (unfold lsum; rewrite alt_eq; ring). rewrite L in R0. clear L.
  assert (HD : Forall2 iv (lnpI N cs) (psubR c (altR false (invs 1 N)))) by (apply psubI_ok; auto; apply altI_ok, invI_ok; lia).
  set (D := psubR c (altR false (invs 1 N))) in *.
  assert (DB : (Rabs (hornerR D r) <= IZR B * UU)%R).
  { destruct (Rle_lt_dec 0 r) as [P|P].
    - apply (isub_ok n h B _ _ r I1 Hh HD); auto. fold a. rewrite Rabs_pos_eq in Hr by auto. split; [exact P|exact Hr].
    - pose proof (isub_ok n h B _ _ (- r)%R I2 Hh (altI_ok _ _ HD false)) as Q. fold a in Q. rewrite alt_eq, Ropp_involutive, Rmult_1_l in Q. apply Q; auto. rewrite Rabs_left in Hr by auto. lra. }
  assert (E : (hornerR c r = hornerR D r + hornerR (altR false (invs 1 N)) r)%R) by (unfold D; rewrite psub_eq; ring). rewrite E.
  replace (r * (hornerR D r + hornerR (altR false (invs 1 N)) r) - ln (1 + r))%R with (r * hornerR D r + (- ln (1 + r) - - (r * hornerR (altR false (invs 1 N)) r)))%R by ring.
  eapply Rle_trans; [apply Rabs_triang|]. rewrite plus_IZR, Rmult_plus_distr_r. apply Rplus_le_compat; [|exact R0].
  rewrite Rabs_mult. eapply Rle_trans; [|apply cd_ok]. rewrite mult_IZR. replace (IZR a * IZR B * UU * UU)%R with ((IZR a * UU) * (IZR B * UU))%R by ring. apply Rmult_le_compat; auto using Rabs_pos.
Qed.
Close Scope Z_scope.
