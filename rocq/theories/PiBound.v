(** Rational bounds of pi, from the standard library's Machin-like series 2 atan(1/3) + atan(1/7). *)
From Coq Require Import ZArith Reals Lra Lia Machin Ratan Even.
Open Scope Z_scope.
Definition fx : Z := 2 ^ 130.
Definition pterm (q : Z) (n : nat) : Z := fx / (q ^ (2 * Z.of_nat n + 1) * (2 * Z.of_nat n + 1)).
Definition pt (n : nat) : Z := 2 * pterm 3 n + pterm 7 n.
Fixpoint plo (n : nat) : Z := match n with O => pt O | S k => plo k + (if Nat.even n then pt n else - (pt n + 3)) end.
Lemma pterm_ok q n : 0 < q -> (IZR (pterm q n) <= IZR fx * Ratan_seq (/ IZR q) n <= IZR (pterm q n) + 1)%R.
Proof.
  intros Hq. set (d := q ^ (2 * Z.of_nat n + 1) * (2 * Z.of_nat n + 1)).
  assert (Pd : 0 < d) by (unfold d; apply Z.mul_pos_pos; [apply Z.pow_pos_nonneg; lia|lia]).
  assert (E : Ratan_seq (/ IZR q) n = (/ IZR d)%R).
  { unfold Ratan_seq, d. assert (IZR q <> 0%R) by (apply not_0_IZR; lia). rewrite pow_inv. rewrite mult_IZR. replace (2 * Z.of_nat n + 1) with (Z.of_nat (2 * n + 1)) at 1 by lia.
    rewrite <- pow_IZR. rewrite INR_IZR_INZ. replace (Z.of_nat (2 * n + 1)) with (2 * Z.of_nat n + 1) by lia. unfold Rdiv. rewrite Rinv_mult. reflexivity. }
  rewrite E. assert (Pr : (0 < IZR d)%R) by now apply IZR_lt. unfold pterm. fold d. pose proof (Z_div_mod_eq_full fx d) as M. pose proof (Z.mod_pos_bound fx d Pd) as B. set (k := fx / d) in *.
  split.
  - apply Rmult_le_reg_r with (IZR d); auto. rewrite Rmult_assoc, Rinv_l, Rmult_1_r by lra. rewrite <- mult_IZR. apply IZR_le. lia.
  - apply Rmult_le_reg_r with (IZR d); auto. rewrite Rmult_assoc, Rinv_l, Rmult_1_r by lra. rewrite <- plus_IZR, <- mult_IZR. apply IZR_le. lia.
Qed.
Lemma pt_ok n : (IZR (pt n) <= IZR fx * PI_2_3_7_tg n <= IZR (pt n) + 3)%R.
Proof.
  unfold pt, PI_2_3_7_tg. destruct (pterm_ok 3 n ltac:(lia)) as [A B]. destruct (pterm_ok 7 n ltac:(lia)) as [C D]. change (IZR 3) with 3%R in *. change (IZR 7) with 7%R in *.
  rewrite plus_IZR, mult_IZR. split; nra.
Qed.
Lemma plo_ok n : (IZR (plo n) <= IZR fx * sum_f_R0 (tg_alt PI_2_3_7_tg) n <= IZR (plo n) + 3 * (INR n + 1))%R.
Proof.
  induction n as [|n IH].
  - cbn [sum_f_R0 plo]. unfold tg_alt. destruct (pt_ok 0) as [A B]. cbn [pow]. rewrite Rmult_1_l. cbn [INR]. lra.
  - cbn [sum_f_R0]. cbn [plo]. destruct (pt_ok (S n)) as [A B]. rewrite Rmult_plus_distr_l. unfold tg_alt at 2 4. rewrite S_INR.
    destruct (Nat.even (S n)) eqn:Ev.
    + assert (P : ((-1) ^ S n = 1)%R) by (apply Nat.even_spec in Ev; destruct Ev as [m ->]; apply pow_1_even). rewrite P, plus_IZR. lra.
    + assert (P : ((-1) ^ S n = -1)%R). { assert (O : Nat.odd (S n) = true) by (unfold Nat.odd; now rewrite Ev). apply Nat.odd_spec in O. destruct O as [m ->]. rewrite Nat.add_1_r. apply pow_1_odd. }
      rewrite P, plus_IZR, opp_IZR, plus_IZR. change (IZR 3) with 3%R. lra.
Qed.
Theorem pi_bounds : (IZR (4 * plo 41) <= IZR fx * PI <= IZR (4 * plo 40) + 500)%R.
Proof.
  destruct (PI_2_3_7_ineq 20) as [A B]. change (S (2 * 20)) with 41%nat in A. change (2 * 20)%nat with 40%nat in B.
  destruct (plo_ok 41) as [C _]. destruct (plo_ok 40) as [_ D]. assert (P : (0 < IZR fx)%R) by (apply IZR_lt; reflexivity).
  assert (I40 : INR 40 = 40%R) by (rewrite INR_IZR_INZ; reflexivity). rewrite I40 in D.
  apply Rmult_le_compat_l with (r := IZR fx) in A; [|lra]. apply Rmult_le_compat_l with (r := IZR fx) in B; [|lra]. rewrite !mult_IZR. lra.
Qed.
Definition pi_lo : Z := Eval vm_compute in (4 * plo 41).
Definition pi_hi : Z := Eval vm_compute in (4 * plo 40 + 500).
Theorem pi_fx : (IZR pi_lo <= IZR fx * PI <= IZR pi_hi)%R.
Proof.
  destruct pi_bounds as [A B]. split.
  - replace pi_lo with (4 * plo 41) by (vm_compute; reflexivity). exact A.
  - replace pi_hi with (4 * plo 40 + 500) by (vm_compute; reflexivity). rewrite plus_IZR. exact B.
Qed.
Lemma pi_gap : pi_hi - pi_lo <= 2000. Proof. vm_compute. discriminate. Qed.
Close Scope Z_scope.
