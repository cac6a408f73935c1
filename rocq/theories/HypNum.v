(** Real-number part of the error analysis of hypot. *)
From Coq Require Import Reals Lra Psatz.
From Flocq Require Import Core.
Local Open Scope R_scope.

Definition u53 : R := / 9007199254740992.
Definition e150 : R := / 1000000000000000000000000000000000000000000.
(** The splitting of x into x^2 = h + l in units of x: every operation has relative error u53 and a negligible absolute error. *)
Lemma Rabs_imp a b : Rabs a <= b -> - b <= a <= b. Proof. intros H. apply Rabs_le_inv in H. exact H. Qed.
Lemma sq_near a e : Rabs (a - 1) <= e -> 0 <= e -> Rabs (a * a - 1) <= 2 * e + e * e.
Proof.
  intros H E. replace (a * a - 1) with ((a - 1) * (a - 1) + 2 * (a - 1)) by ring. eapply Rle_trans; [apply Rabs_triang|]. rewrite !Rabs_mult. rewrite (Rabs_right 2) by lra.
  pose proof (Rabs_pos (a - 1)). nra.
Qed.
Definition near (y s : R) : Prop := Rabs (y - s) <= u53 * Rabs s + e150.
Section Split.
Context (c d xh xl hh q1 l1 t q2 l2 q3 l3 : R).
Context (Hc : near c 134217729).
Context (Hd : near d (1 - c)).
Context (Hxh : near xh (d + c)).
Context (Hxl : near xl (1 - xh)).
Lemma xh_near : Rabs (xh - 1) <= / 16777216.
Proof.
  unfold near in *. rewrite (Rabs_right 134217729) in Hc by lra. apply Rabs_imp in Hc. unfold u53, e150 in *.
  assert (C : 134217728 <= c <= 134217730) by lra. rewrite (Rabs_left (1 - c)) in Hd by lra. apply Rabs_imp in Hd. assert (D : 1 - / 60000000 <= d + c <= 1 + / 60000000) by lra. rewrite (Rabs_right (d + c)) in Hxh by lra. apply Rabs_imp in Hxh. apply Rabs_le. lra.
Qed.
Lemma xl_small : Rabs xl <= / 8388608 /\ Rabs (xh + xl - 1) <= / 10000000 * u53.
Proof.
  pose proof xh_near as H. unfold near in Hxl. apply Rabs_imp in H. assert (B : Rabs (1 - xh) <= / 16777216) by (apply Rabs_le; lra). apply Rabs_imp in Hxl. pose proof (Rabs_imp _ _ B). unfold u53, e150 in *. split; apply Rabs_le; lra.
Qed.
Context (Hh : near hh 1).
Context (Hq1 : near q1 (xh * xh)).
Context (Hl1 : near l1 (q1 - hh)).
Context (Ht : near t (2 * xl)).
Context (Hq2 : near q2 (xh * t)).
Context (Hl2 : near l2 (q2 + l1)).
Context (Hq3 : near q3 (xl * xl)).
Context (Hl3 : near l3 (q3 + l2)).
Lemma split_num : Rabs (hh + l3 - 1) <= 11 / 10 * u53 /\ Rabs l3 <= 22 / 10 * u53.
Proof.
  pose proof xh_near as A. destruct xl_small as [B B2]. pose proof (sq_near xh _ A ltac:(lra)) as S1. pose proof (sq_near (xh + xl) _ B2 ltac:(unfold u53; lra)) as S2.
  assert (S1' : Rabs (xh * xh - 1) <= / 8000000) by lra. clear S1. assert (S2' : Rabs ((xh + xl) * (xh + xl) - 1) <= / 1000000 * u53). { eapply Rle_trans; [exact S2|]. unfold u53. lra. } clear S2.
  assert (S3 : Rabs (xl * xl) <= / 8388608 * / 8388608). { rewrite Rabs_mult. apply Rmult_le_compat; auto using Rabs_pos. }
  assert (T : Rabs (xh * t - 2 * xh * xl) <= / 1000000 * u53).
  { replace (xh * t - 2 * xh * xl) with (xh * (t - 2 * xl)) by ring. rewrite Rabs_mult. assert (Rabs xh <= 2). { apply Rabs_imp in A. apply Rabs_le. lra. }
    assert (Rabs (t - 2 * xl) <= / 4000000 * u53). { unfold near in Ht. rewrite Rabs_mult, (Rabs_right 2) in Ht by lra. unfold u53, e150 in *. lra. }
    replace (/ 1000000 * u53) with (4 * / 4000000 * u53) by lra. apply Rle_trans with (2 * (/ 4000000 * u53)). { apply Rmult_le_compat; auto using Rabs_pos. } unfold u53. lra. }
  assert (XX : Rabs (2 * xh * xl) <= / 2000000). { rewrite !Rabs_mult, (Rabs_right 2) by lra. assert (Rabs xh <= 3 / 2). { apply Rabs_imp in A. apply Rabs_le. lra. } pose proof (Rabs_pos xh). pose proof (Rabs_pos xl). apply Rle_trans with (2 * (3 / 2) * / 8388608); [|lra]. apply Rmult_le_compat; try lra. }
  unfold near in *. rewrite Rabs_R1 in Hh.
  set (P := xh * xh) in *. set (Q := xh * t) in *. set (V := xl * xl) in *. set (Y := 2 * xh * xl) in *.
  assert (E : (xh + xl) * (xh + xl) = P + Y + V) by (unfold P, Y, V; ring). rewrite E in S2'. clearbody P Q V Y. clear Hc Hd Hxh Hxl A B B2 Ht E.
  assert (P1 : Rabs P <= 1 + / 8000000) by (apply Rabs_imp in S1'; apply Rabs_le; lra).
  assert (Q1 : Rabs (q1 - P) <= (1 + / 7000000) * u53) by (unfold u53, e150 in *; lra).
  assert (D1 : Rabs (q1 - hh) <= / 7000000). { apply Rabs_imp in Q1, S1', Hh. apply Rabs_le. unfold u53, e150 in *. lra. }
  assert (L1 : Rabs (l1 - (q1 - hh)) <= / 6000000 * u53) by (unfold u53, e150 in *; lra).
  assert (Qb : Rabs Q <= / 1000000). { apply Rabs_imp in T, XX. apply Rabs_le. unfold u53 in *. lra. }
  assert (Q2 : Rabs (q2 - Q) <= / 900000 * u53) by (unfold u53, e150 in *; lra).
  assert (D2 : Rabs (q2 + l1) <= / 100000). { apply Rabs_imp in Q2, Qb, L1, D1. apply Rabs_le. unfold u53 in *. lra. }
  assert (L2 : Rabs (l2 - (q2 + l1)) <= / 90000 * u53) by (unfold u53, e150 in *; lra).
  assert (Q3 : Rabs (q3 - V) <= / 1000000 * u53) by (unfold u53, e150 in *; lra).
  assert (D3 : Rabs (q3 + l2) <= / 10000). { apply Rabs_imp in Q3, S3, L2, D2. apply Rabs_le. unfold u53 in *. lra. }
  assert (L3 : Rabs (l3 - (q3 + l2)) <= / 9000 * u53) by (unfold u53, e150 in *; lra).
  apply Rabs_imp in Q1, L1, Q2, L2, Q3, L3, T, S2', Hh. split; apply Rabs_le; unfold u53, e150 in *; lra.
Qed.
End Split.

(** sqrt (a^2 + b^2) lies between max and sum *)
Lemma hyp_bounds a b : 0 <= b <= a -> a <= sqrt (a * a + b * b) <= a + b.
Proof.
  intros H. split.
  - rewrite <- (sqrt_square a) at 1 by lra. apply sqrt_le_1_alt. nra.
  - rewrite <- (sqrt_square (a + b)) by lra. apply sqrt_le_1_alt. nra.
Qed.
(** relative error through the square root *)
Lemma sqrt_rel s S e : 0 < S -> 0 <= e <= / 100 -> Rabs (s - S) <= e * S -> 0 <= s /\ Rabs (sqrt s - sqrt S) <= 51 / 100 * e * sqrt S.
Proof.
  intros HS He H. apply Rabs_imp in H. assert (B : 99 / 100 * S <= s) by nra. assert (s0 : 0 <= s) by nra. split; auto. pose proof (sqrt_lt_R0 S HS) as PS.
  assert (Q : 98 / 100 * sqrt S <= sqrt s). { rewrite <- (sqrt_square (98 / 100)) by lra. rewrite <- sqrt_mult_alt by lra. apply sqrt_le_1_alt. lra. }
  assert (P : (sqrt s - sqrt S) * (sqrt s + sqrt S) = s - S). { pose proof (sqrt_sqrt s s0). pose proof (sqrt_sqrt S ltac:(lra)). nra. }
  assert (G : Rabs (sqrt s - sqrt S) * (sqrt s + sqrt S) <= e * S). { rewrite <- (Rabs_right (sqrt s + sqrt S)) by lra. rewrite <- Rabs_mult, P. apply Rabs_le. lra. }
  pose proof (Rabs_pos (sqrt s - sqrt S)) as A. pose proof (sqrt_sqrt S ltac:(lra)) as SS.
  apply Rmult_le_reg_r with (198 / 100 * sqrt S); [lra|]. apply Rle_trans with (e * S); [eapply Rle_trans; [|exact G]; apply Rmult_le_compat_l; lra|].
  assert (ES : e * S = e * (sqrt S * sqrt S)) by now rewrite SS. assert (0 <= e * (sqrt S * sqrt S)) by (apply Rmult_le_pos; nra). assert (Q2 : 51 / 100 * e * sqrt S * (198 / 100 * sqrt S) = 10098 / 10000 * (e * (sqrt S * sqrt S))) by field. rewrite ES. lra.
Qed.
