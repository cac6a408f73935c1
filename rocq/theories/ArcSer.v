(** Taylor polynomials of atan and asin with remainder bounds, from the mean value theorem. *)
From Coq Require Import ZArith Reals Ratan Lra Lia List Bool.
From Flocq Require Import Core.
From Verif Require Import FErr IvPoly.
Import ListNotations.
Open Scope R_scope.

(** derivative of x^j * p(x^2) *)
Fixpoint dodd (j : nat) (l : list R) : list R := match l with [] => [] | c :: l' => INR j * c :: dodd (S (S j)) l' end.
Lemma dodd_ok l : forall j x, (0 < j)%nat -> derivable_pt_lim (fun y => y ^ j * hornerR l (y * y)) x (x ^ Nat.pred j * hornerR (dodd j l) (x * x)).
Proof.
  induction l as [|c l IH]; intros j x Hj.
  - cbn [dodd]. unfold hornerR. cbn [fold_right]. replace (x ^ Nat.pred j * 0) with 0 by ring. apply (derivable_pt_lim_ext (fun _ => 0)); [intros z; ring|]. apply derivable_pt_lim_const.
  - assert (H1 := derivable_pt_lim_scal _ c x _ (derivable_pt_lim_pow x j)). assert (H2 := IH (S (S j)) x ltac:(lia)). assert (H := derivable_pt_lim_plus _ _ x _ _ H1 H2).
    destruct j as [|j]; [lia|]. cbn [dodd Nat.pred] in *. unfold mult_real_fct, plus_fct in H.
    change (hornerR (INR (S j) * c :: dodd (S (S (S j))) l) (x * x)) with (INR (S j) * c + x * x * hornerR (dodd (S (S (S j))) l) (x * x)).
    replace (x ^ j * (INR (S j) * c + x * x * hornerR (dodd (S (S (S j))) l) (x * x))) with (c * (INR (S j) * x ^ j) + x ^ S (S j) * hornerR (dodd (S (S (S j))) l) (x * x)) by (cbn [pow]; ring).
    eapply derivable_pt_lim_ext; [|exact H]. intros z. change (hornerR (c :: l) (z * z)) with (c + z * z * hornerR l (z * z)). cbn [pow]. ring.
Qed.
Lemma dodd1 l x : derivable_pt_lim (fun y => y * hornerR l (y * y)) x (hornerR (dodd 1 l) (x * x)).
Proof.
  replace (hornerR (dodd 1 l) (x * x)) with (x ^ Nat.pred 1 * hornerR (dodd 1 l) (x * x)) by (cbn; ring). eapply derivable_pt_lim_ext; [|exact (dodd_ok l 1 x ltac:(lia))]. intros z. cbn. ring.
Qed.
(** a function with derivative g, against x p(x^2) *)
Lemma odd_mvt F g l a E : 0 <= a -> F 0 = 0 -> (forall c, 0 <= c <= a -> derivable_pt_lim F c (g c)) -> (forall c, 0 <= c <= a -> Rabs (g c - hornerR (dodd 1 l) (c * c)) <= E) ->
  Rabs (F a - a * hornerR l (a * a)) <= a * E.
Proof.
  intros Ha F0 D B. destruct (Req_dec a 0) as [->|N]. { rewrite F0, Rmult_0_l, Rminus_0_r, Rabs_R0. lra. }
  destruct (MVT_cor2 (fun x => F x - x * hornerR l (x * x)) (fun x => g x - hornerR (dodd 1 l) (x * x)) 0 a ltac:(lra)) as (c & E1 & C).
  { intros c Hc. apply derivable_pt_lim_minus; [auto|apply dodd1]. }
  rewrite F0, Rmult_0_l, Rminus_0_r, Rminus_0_r, Rminus_0_r in E1. rewrite E1, Rabs_mult, Rmult_comm, (Rabs_pos_eq a) by lra. apply Rmult_le_compat_l; [lra|]. apply B. lra.
Qed.

(** *** atan *)
(** 1/j, -1/(j+2), 1/(j+4), ... *)
Fixpoint atc (s : R) (j n : nat) : list R := match n with O => [] | S k => s / INR j :: atc (- s) (S (S j)) k end.
Lemma atc_d n : forall s j z, (0 < j)%nat -> (1 + z) * hornerR (dodd j (atc s j n)) z = s - s * (- z) ^ n.
Proof.
  induction n as [|n IH]; intros s j z Hj; cbn [atc dodd]. { unfold hornerR. cbn. ring. }
  assert (Pj : INR j <> 0) by (apply not_0_INR; lia).
  change (hornerR (INR j * (s / INR j) :: dodd (S (S j)) (atc (- s) (S (S j)) n)) z) with (INR j * (s / INR j) + z * hornerR (dodd (S (S j)) (atc (- s) (S (S j)) n)) z).
  rewrite Rmult_plus_distr_l. replace ((1 + z) * (z * hornerR (dodd (S (S j)) (atc (- s) (S (S j)) n)) z)) with (z * ((1 + z) * hornerR (dodd (S (S j)) (atc (- s) (S (S j)) n)) z)) by ring.
  rewrite IH by lia. cbn [pow]. field. auto.
Qed.
Lemma atan_taylor n a : 0 <= a -> Rabs (atan a - a * hornerR (atc 1 1 n) (a * a)) <= a * (a * a) ^ n.
Proof.
  intros Ha. apply odd_mvt with (g := fun x => / (1 + x ^ 2)); auto using atan_0. { intros c _. apply derivable_pt_lim_atan. }
  intros c Hc. assert (D := atc_d n 1 1%nat (c * c) ltac:(lia)). set (h := hornerR (dodd 1 (atc 1 1 n)) (c * c)) in *. assert (C2 : 0 <= c * c) by nra.
  replace (/ (1 + c ^ 2) - h) with ((- (c * c)) ^ n / (1 + c * c)).
  - unfold Rdiv. rewrite Rabs_mult, Rabs_inv, (Rabs_pos_eq (1 + c * c)) by lra. rewrite <- RPow_abs, Rabs_Ropp, (Rabs_pos_eq (c * c)) by lra.
    assert (P : (c * c) ^ n <= (a * a) ^ n) by (apply pow_incr; nra). assert (0 <= (c * c) ^ n) by (apply pow_le; lra). assert (0 < / (1 + c * c) <= 1). { split; [apply Rinv_0_lt_compat; lra|]. rewrite <- Rinv_1 at 2. apply Rinv_le; lra. } nra.
  - apply Rmult_eq_reg_l with (1 + c * c); [|lra]. cbn [pow]. rewrite Rmult_1_r, Rmult_minus_distr_l. unfold Rdiv. rewrite (Rmult_comm ((- (c * c)) ^ n)), <- Rmult_assoc, Rinv_r, Rmult_1_l by lra. lra.
Qed.

(** *** asin *)
(** polynomials with integer coefficients, constant first *)
Fixpoint zscale (c : Z) (l : list Z) : list Z := match l with [] => [] | x :: l' => (c * x)%Z :: zscale c l' end.
Fixpoint zadd (a b : list Z) : list Z := match a, b with [], _ => b | _, [] => a | x :: a', y :: b' => (x + y)%Z :: zadd a' b' end.
Fixpoint zmul (a b : list Z) : list Z := match a with [] => [] | c :: a' => zadd (zscale c b) (0%Z :: zmul a' b) end.
Definition zh (l : list Z) (t : R) : R := hornerR (map IZR l) t.
Lemma zscale_ok c l t : zh (zscale c l) t = IZR c * zh l t.
Proof. unfold zh. induction l as [|x l IH]; cbn [zscale map]. { unfold hornerR. cbn. ring. } unfold hornerR in *. cbn [fold_right]. rewrite IH, mult_IZR. ring. Qed.
Lemma zadd_ok a : forall b t, zh (zadd a b) t = zh a t + zh b t.
Proof. unfold zh. induction a as [|x a IH]; intros [|y b] t; cbn [zadd map]; unfold hornerR in *; cbn [fold_right]; rewrite ?plus_IZR; try ring. rewrite IH. ring. Qed.
Lemma zmul_ok a b t : zh (zmul a b) t = zh a t * zh b t.
Proof. induction a as [|x a IH]; cbn [zmul]. { unfold zh, hornerR. cbn. ring. } rewrite zadd_ok, zscale_ok. unfold zh in *. cbn [map]. unfold hornerR in *. cbn [fold_right]. rewrite IH. ring. Qed.
(** C(2k,k) 4^(n-k), k = j .. ; the coefficients of 1/sqrt(1-z) times 4^n *)
Fixpoint bz (k : nat) (b : Z) (n : nat) : list Z := match n with O => [b] | S m => b :: bz (S k) (b * (2 * Z.of_nat k + 1) / (2 * Z.of_nat k + 2))%Z m end.
Definition bl (n : nat) : list Z := bz 0 (4 ^ Z.of_nat n) n.
Definition nb : nat := 40.
Definition p4 : Z := (4 ^ Z.of_nat nb)%Z.
(** 16^n - p(z)^2 (1 - z) = z^(n+1) r(z) *)
Definition rem (p : Z) (b : list Z) : list Z := zadd [(p * p)%Z] (zscale (-1) (zmul [1; -1]%Z (zmul b b))).
Lemma zh_app a b t : zh (a ++ b) t = zh a t + t ^ length a * zh b t.
Proof. unfold zh. rewrite map_app. induction a as [|x a IH]; cbn [map app length pow]; unfold hornerR in *; cbn [fold_right]; [ring|]. rewrite IH. ring. Qed.
Lemma zh_zero l t : forallb (Z.eqb 0) l = true -> zh l t = 0.
Proof. unfold zh. induction l as [|x l IH]; cbn [forallb map]; intros H; unfold hornerR in *; cbn [fold_right]; auto. apply andb_prop in H. destruct H as [H1 H2]. apply Z.eqb_eq in H1. subst x. rewrite (IH H2). ring. Qed.
Lemma zh_range l t : forallb (Z.leb 0) l = true -> 0 <= t <= 1 -> 0 <= zh l t <= IZR (fold_right Z.add 0%Z l).
Proof.
  intros H Ht. unfold zh. induction l as [|x l IH]; cbn [forallb map fold_right] in *; unfold hornerR in *; cbn [fold_right] in *; [lra|]. apply andb_prop in H. destruct H as [H1 H2]. apply Z.leb_le, IZR_le in H1. specialize (IH H2). rewrite plus_IZR. nra.
Qed.
Lemma sq_gen p b n z : 0 < IZR p -> forallb (Z.eqb 0) (firstn n (rem p b)) = true -> forallb (Z.leb 0) (skipn n (rem p b)) = true -> fold_right Z.add 0%Z (skipn n (rem p b)) = (p * p)%Z ->
  forallb (Z.leb 0) b = true -> length (firstn n (rem p b)) = n -> 0 <= z <= 1 ->
  0 <= zh b z / IZR p /\ 1 - z ^ n <= zh b z / IZR p * (zh b z / IZR p) * (1 - z) <= 1.
Proof.
  intros P4 H0 H1 H2 H3 HL Hz. assert (B0 := zh_range b z H3 Hz). split. { apply Rmult_le_pos; [lra|]. left. now apply Rinv_0_lt_compat. }
  assert (R0 := zh_range _ z H1 Hz). rewrite H2 in R0.
  assert (E1 : zh (rem p b) z = IZR p * IZR p - (1 - z) * (zh b z * zh b z)).
  { unfold rem. rewrite zadd_ok, zscale_ok, !zmul_ok. assert (zh [(p * p)%Z] z = IZR p * IZR p) as -> by (unfold zh, hornerR; cbn [map fold_right]; rewrite mult_IZR; ring). assert (zh [1; -1]%Z z = 1 - z) as -> by (unfold zh, hornerR; cbn [map fold_right]; ring). ring. }
  assert (E2 : zh (rem p b) z = z ^ n * zh (skipn n (rem p b)) z).
  { rewrite <- (firstn_skipn n (rem p b)) at 1. rewrite zh_app, (zh_zero _ _ H0), HL. ring. }
  assert (Pz : 0 <= z ^ n) by (apply pow_le; lra). rewrite mult_IZR in R0.
  set (q := zh b z) in *. set (pp := IZR p) in *. set (r := zh (skipn n (rem p b)) z) in *. set (y := z ^ n) in *. clearbody q pp r y. clear H0 H1 H2 H3 HL.
  replace (q / pp * (q / pp) * (1 - z)) with (((1 - z) * (q * q)) / (pp * pp)) by (field; lra).
  assert (E : (1 - z) * (q * q) = pp * pp - y * r) by lra. rewrite E. assert (PP : 0 < pp * pp) by nra. assert (Yr : 0 <= y * r <= y * (pp * pp)) by (split; [apply Rmult_le_pos; lra|apply Rmult_le_compat_l; lra]).
  split; [apply Rmult_le_reg_r with (pp * pp)|apply Rmult_le_reg_r with (pp * pp)]; auto; unfold Rdiv; rewrite ?(Rmult_assoc (pp * pp - y * r)), ?Rinv_l, ?Rmult_1_r by lra; lra.
Qed.
Definition sq1 (z : R) : R := zh (bl nb) z / IZR p4.     (* the Taylor polynomial of 1/sqrt(1-z) *)
Lemma p4_pos : 0 < IZR p4. Proof. apply IZR_lt. reflexivity. Qed.
Lemma bl_0 : forallb (Z.eqb 0) (firstn (S nb) (rem p4 (bl nb))) = true. Proof. vm_compute. reflexivity. Qed.
Lemma bl_1 : forallb (Z.leb 0) (skipn (S nb) (rem p4 (bl nb))) = true. Proof. vm_compute. reflexivity. Qed.
Lemma bl_2 : fold_right Z.add 0%Z (skipn (S nb) (rem p4 (bl nb))) = (p4 * p4)%Z. Proof. vm_compute. reflexivity. Qed.
Lemma bl_3 : forallb (Z.leb 0) (bl nb) = true. Proof. vm_compute. reflexivity. Qed.
Lemma bl_4 : length (firstn (S nb) (rem p4 (bl nb))) = S nb. Proof. vm_compute. reflexivity. Qed.
Lemma sq1_sq z : 0 <= z <= 1 -> 0 <= sq1 z /\ 1 - z ^ S nb <= sq1 z * sq1 z * (1 - z) <= 1.
Proof. intros Hz. exact (sq_gen p4 (bl nb) (S nb) z p4_pos bl_0 bl_1 bl_2 bl_3 bl_4 Hz). Qed.
Lemma sq1_err z : 0 <= z <= 3 / 4 -> Rabs (1 / sqrt (1 - z) - sq1 z) <= 2 * z ^ S nb.
Proof.
  intros Hz. destruct (sq1_sq z ltac:(lra)) as [S0 [S1 S2]]. set (s := sq1 z) in *. clearbody s. set (y := z ^ S nb) in *. assert (Y : 0 <= y <= 1). { unfold y. split; [apply pow_le; lra|]. rewrite <- (pow1 (S nb)). apply pow_incr. lra. } clearbody y.
  assert (Q : 0 < sqrt (1 - z)) by (apply sqrt_lt_R0; lra). assert (QQ := sqrt_sqrt (1 - z) ltac:(lra)). assert (Q2 : / 2 <= sqrt (1 - z)). { rewrite <- (sqrt_square (/ 2)) by lra. apply sqrt_le_1_alt. lra. }
  set (q := sqrt (1 - z)) in *. clearbody q. rewrite <- QQ in S1, S2.
  assert (P0 : 0 <= s * q) by nra. assert (A1 : s * q <= 1). { apply Rnot_lt_le. intros L. nra. } assert (A2 : 1 - y <= s * q). { apply Rnot_lt_le. intros L. nra. }
  replace (1 / q - s) with ((1 - s * q) / q) by (field; lra). unfold Rdiv. assert (IQ : 0 < / q <= 2). { split; [now apply Rinv_0_lt_compat|]. replace 2 with (/ / 2) by lra. apply Rinv_le; lra. }
  rewrite Rabs_mult, !Rabs_pos_eq by lra. nra.
Qed.
(** b_k / (2k+1) *)
Fixpoint asc (j : nat) (l : list Z) : list R := match l with [] => [] | b :: l' => IZR b / IZR p4 / INR j :: asc (S (S j)) l' end.
Lemma asc_d l : forall j z, (0 < j)%nat -> hornerR (dodd j (asc j l)) z = zh l z / IZR p4.
Proof.
  pose proof p4_pos as P. induction l as [|b l IH]; intros j z Hj; cbn [asc dodd]. { unfold zh, hornerR. cbn [map fold_right]. unfold Rdiv. ring. }
  assert (Pj : INR j <> 0) by (apply not_0_INR; lia). unfold zh in *. cbn [map].
  change (hornerR (INR j * (IZR b / IZR p4 / INR j) :: dodd (S (S j)) (asc (S (S j)) l)) z) with (INR j * (IZR b / IZR p4 / INR j) + z * hornerR (dodd (S (S j)) (asc (S (S j)) l)) z).
  rewrite IH by lia. change (hornerR (IZR b :: map IZR l) z) with (IZR b + z * hornerR (map IZR l) z). field. split; [lra|auto].
Qed.
Lemma asin_taylor a : 0 <= a -> a * a <= 3 / 4 -> Rabs (asin a - a * hornerR (asc 1 (bl nb)) (a * a)) <= a * (2 * (a * a) ^ S nb).
Proof.
  intros Ha A2. apply odd_mvt with (g := fun x => 1 / sqrt (1 - x * x)); auto using asin_0.
  - intros c Hc. assert (R : -1 < c < 1) by nra. assert (D := derive_pt_asin c R). unfold Rsqr in D. rewrite <- D. unfold derive_pt. destruct (derivable_pt_asin c R) as [v Hv]. exact Hv.
  - intros c Hc. rewrite asc_d by lia. fold (sq1 (c * c)). eapply Rle_trans; [apply sq1_err; nra|]. apply Rmult_le_compat_l; [lra|]. apply pow_incr. nra.
Qed.
Close Scope R_scope.
