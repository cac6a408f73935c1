(** Bounds of a polynomial over an interval: interval Horner scheme in fixed point (units of 2^-140), with subdivision. *)
From Coq Require Import ZArith Reals Lra Lia List Bool.
From Flocq Require Import Core.
From Verif Require Import FErr.
Import ListNotations.
Open Scope Z_scope.

Definition S140 : Z := 2 ^ 140.
Definition hornerR (l : list R) (t : R) : R := fold_right (fun c acc => c + t * acc)%R 0%R l.
(** [iv p r]: the real r lies between the two ends of p, in units of 2^-140 *)
Definition iv (p : Z * Z) (r : R) : Prop := (IZR (fst p) * UU <= r <= IZR (snd p) * UU)%R.
Definition fl (a : Z) : Z := zshr a 140.
Definition ce (a : Z) : Z := zshr a 140 + 1.
(** multiplication by t in [a, b], 0 <= a *)
Definition imul (a b : Z) (p : Z * Z) : Z * Z :=
  (fl (if 0 <=? fst p then a * fst p else b * fst p), ce (if 0 <=? snd p then b * snd p else a * snd p)).
Definition iadd (p q : Z * Z) : Z * Z := (fst p + fst q, snd p + snd q).
Definition ihorner (a b : Z) (l : list (Z * Z)) : Z * Z := fold_right (fun c acc => iadd c (imul a b acc)) (0, 0) l.

Lemma fl_ok a : (IZR (fl a) * UU <= IZR a * UU * UU)%R.
Proof.
  pose proof UU_pos. apply Rmult_le_compat_r; [lra|]. unfold fl. rewrite zshr_div by lia. fold S140. assert (IZR (a / S140) * IZR S140 <= IZR a)%R.
  { rewrite <- mult_IZR. apply IZR_le. pose proof (Z_div_mod_eq_full a S140). pose proof (Z.mod_pos_bound a S140 eq_refl). lia. }
  pose proof UU_inv as I. fold S140 in I. apply Rmult_le_compat_r with (r := UU) in H0; [|lra]. rewrite Rmult_assoc, I, Rmult_1_r in H0. exact H0.
Qed.
Lemma ce_ok a : (IZR a * UU * UU <= IZR (ce a) * UU)%R. Proof. exact (cd_ok a). Qed.
Lemma imul_ok a b p t r : 0 <= a -> (IZR a * UU <= t <= IZR b * UU)%R -> iv p r -> iv (imul a b p) (t * r).
Proof.
  intros Ha [T1 T2] [R1 R2]. pose proof UU_pos as UP. assert (T0 : (0 <= t)%R). { apply IZR_le in Ha. nra. } unfold imul, iv. cbn [fst snd].
  destruct p as [l h]. cbn [fst snd] in *. split.
  - eapply Rle_trans; [apply fl_ok|]. destruct (Z.leb_spec 0 l) as [L|L].
    + apply IZR_le in L. rewrite mult_IZR. assert (0 <= IZR a)%R by (apply IZR_le; lia). replace (IZR a * IZR l * UU * UU)%R with ((IZR a * UU) * (IZR l * UU))%R by ring. assert (0 <= IZR l * UU)%R by nra. assert (0 <= IZR a * UU)%R by nra. apply Rmult_le_compat; lra.
    + apply IZR_lt in L. rewrite mult_IZR. replace (IZR b * IZR l * UU * UU)%R with ((IZR b * UU) * (IZR l * UU))%R by ring. assert (IZR l * UU <= 0)%R by nra. 
      apply Rle_trans with (t * (IZR l * UU))%R; [nra|]. apply Rmult_le_compat_l; lra.
  - eapply Rle_trans; [|apply ce_ok]. destruct (Z.leb_spec 0 h) as [L|L].
    + apply IZR_le in L. rewrite mult_IZR. replace (IZR b * IZR h * UU * UU)%R with ((IZR b * UU) * (IZR h * UU))%R by ring. assert (0 <= IZR h * UU)%R by nra.
      apply Rle_trans with (t * (IZR h * UU))%R; [apply Rmult_le_compat_l; lra|]. apply Rmult_le_compat_r; lra.
    + apply IZR_lt in L. rewrite mult_IZR. replace (IZR a * IZR h * UU * UU)%R with ((IZR a * UU) * (IZR h * UU))%R by ring. assert (IZR h * UU <= 0)%R by nra.
      apply Rle_trans with (t * (IZR h * UU))%R; [apply Rmult_le_compat_l; lra|]. nra.
Qed.
Lemma iadd_ok p q r s : iv p r -> iv q s -> iv (iadd p q) (r + s).
Proof. unfold iv, iadd. cbn [fst snd]. rewrite !plus_IZR, !Rmult_plus_distr_r. lra. Qed.
Lemma ihorner_ok a b t : 0 <= a -> (IZR a * UU <= t <= IZR b * UU)%R -> forall ps l, Forall2 iv ps l -> iv (ihorner a b ps) (hornerR l t).
Proof.
  intros Ha Ht ps l H. induction H; cbn [ihorner hornerR fold_right]. { unfold iv. cbn. lra. } apply iadd_ok; auto. now apply imul_ok.
Qed.
Lemma iv_abs p r B : iv p r -> - B <= fst p -> snd p <= B -> (Rabs r <= IZR B * UU)%R.
Proof. intros [H1 H2] A1 A2. pose proof UU_pos. apply IZR_le in A1, A2. rewrite opp_IZR in A1. apply Rabs_le. nra. Qed.
(** value at a and slope over [a, b]: hornerR l t = hornerR l a + (t - a) * slope *)
Fixpoint slopeR (l : list R) (a t : R) : R := match l with [] => 0%R | _ :: l' => (hornerR l' t + a * slopeR l' a t)%R end.
Lemma slope_eq l a t : (hornerR l t = hornerR l a + (t - a) * slopeR l a t)%R.
Proof.
  induction l as [|c l IH]; cbn [slopeR]; [unfold hornerR; cbn; ring|]. change (hornerR (c :: l) t) with (c + t * hornerR l t)%R. change (hornerR (c :: l) a) with (c + a * hornerR l a)%R.
  assert (E : (a * hornerR l a = a * hornerR l t - a * ((t - a) * slopeR l a t))%R) by (rewrite IH; ring). rewrite E. ring.
Qed.
Fixpoint islope (a b : Z) (ps : list (Z * Z)) : Z * Z * (Z * Z) * (Z * Z) :=   (* over [a, b], at a, slope *)
  match ps with
  | [] => ((0, 0), (0, 0), (0, 0))
  | c :: ps' => let '(hb, ha, q) := islope a b ps' in (iadd c (imul a b hb), iadd c (imul a a ha), iadd hb (imul a a q))
  end.
Lemma islope_ok a b t : 0 <= a -> (IZR a * UU <= t <= IZR b * UU)%R -> forall ps l, Forall2 iv ps l ->
  let '(hb, ha, q) := islope a b ps in iv hb (hornerR l t) /\ iv ha (hornerR l (IZR a * UU)) /\ iv q (slopeR l (IZR a * UU) t).
Proof.
  intros Ha Ht ps l H. induction H as [|p r ps l Hp Hl IH]; cbn [islope slopeR]. { unfold iv, hornerR. cbn. lra. }
  destruct (islope a b ps) as [[hb ha] q]. destruct IH as (I1 & I2 & I3). assert (Pa : (IZR a * UU <= IZR a * UU <= IZR a * UU)%R) by lra. split; [|split].
  - change (hornerR (r :: l) t) with (r + t * hornerR l t)%R. apply iadd_ok; auto. apply imul_ok; auto.
  - change (hornerR (r :: l) (IZR a * UU)) with (r + (IZR a * UU) * hornerR l (IZR a * UU))%R. apply iadd_ok; auto. apply imul_ok; auto.
  - apply iadd_ok; auto. apply imul_ok; auto.
Qed.
Definition islp (a h : Z) (ps : list (Z * Z)) : Z * Z := let '(_, ha, q) := islope a (a + h) ps in iadd ha (imul 0 h q).
Lemma islp_ok a h t ps l : 0 <= a -> (IZR a * UU <= t <= IZR (a + h) * UU)%R -> Forall2 iv ps l -> iv (islp a h ps) (hornerR l t).
Proof.
  intros Ha Ht Hl. unfold islp. pose proof (islope_ok a (a + h) t Ha Ht ps l Hl) as I. destruct (islope a (a + h) ps) as [[hb hc] q]. destruct I as (_ & I2 & I3). rewrite (slope_eq l (IZR a * UU) t).
  apply iadd_ok; auto. apply imul_ok; auto; [lia|]. rewrite plus_IZR, Rmult_plus_distr_r in Ht. lra.
Qed.
(** subdivision of [0, n h] *)
Fixpoint isub (n : nat) (h B : Z) (ps : list (Z * Z)) : bool :=
  match n with
  | O => true
  | S k => let p := islp (Z.of_nat k * h) h ps in (- B <=? fst p) && (snd p <=? B) && isub k h B ps
  end.
Lemma isub_ok n h B ps l t : isub n h B ps = true -> 0 <= h -> Forall2 iv ps l -> (0 <= t <= IZR (Z.of_nat n * h) * UU)%R -> (0 < n)%nat -> (Rabs (hornerR l t) <= IZR B * UU)%R.
Proof.
  intros H Hh Hl. revert H t. induction n as [|n IH]; [lia|]. intros H t [T0 T1] _. cbn [isub] in H. apply andb_prop in H. destruct H as [H H2]. apply andb_prop in H. destruct H as [H0 H1]. apply Z.leb_le in H0, H1.
  destruct (Rle_lt_dec (IZR (Z.of_nat n * h) * UU) t) as [L|L].
  - eapply iv_abs; [apply (islp_ok (Z.of_nat n * h) h t ps l); auto; [lia|]|exact H0|exact H1]. replace (Z.of_nat n * h + h) with (Z.of_nat (S n) * h) by lia. lra.
  - destruct n as [|n]. { cbn in L. lra. } apply IH; auto; [|lia]. lra.
Qed.
Close Scope Z_scope.
