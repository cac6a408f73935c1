(** Generic math functions: C61 (each std function applied to every element, with the same name and argument order), C62 (rint), C63 (conversions to
    integer types).  [L] is the <cmath> library: an arbitrary function for every name. *)
From Coq Require Import ZifyBool ZifyNat Reals Lra.
From Flocq Require Import Core IEEE754.BinarySingleNaN IEEE754.Binary.
From Verif Require Import Base Cxx Generic GenericProofs Spec X86Vec Fp FpLemmas FpOps Cvt CvtProofs FManip RoundSem PropManip PropRound PropIeee X86 X86Scalar PropArith GMath GRound.
Local Open Scope nat_scope.

(** *** Loops *)
Lemma fill_fresh {A} (zero : A) N (f : nat -> res A) l :
  length l = N -> (forall i, i < N -> f i = get l i) -> fill N f (repeat zero N) = Ok l.
Proof.
  intros HL H. apply fill_ok_iff. { rewrite repeat_length; auto. } rewrite repeat_length. repeat split; auto.
  intros i Hi. rewrite !(proj2 (get_ub _ _)); rewrite ?repeat_length; auto; lia.
Qed.
Lemma copy_from_conv {A B} (zero : B) (g : A -> B) N l :
  length l = N -> copy_from (fun v => Ok (g v)) N l 0 (repeat zero N) = Ok (map g l).
Proof.
  intros HL. rewrite copy_from_fill. apply fill_fresh. { rewrite map_length; auto. } intros i Hi. cbn [Nat.add]. rewrite get_map. unfold rmap. reflexivity.
Qed.
Lemma loop1_map {A B} (zero : B) (g : A -> B) N x : length x = N -> loop1 zero g N x = Ok (map g x).
Proof. intros H. unfold loop1. apply from_result_ok. rewrite map_length. split; auto. intros i Hi. rewrite get_map. reflexivity. Qed.
Lemma get_combine {A B} (a : list A) (b : list B) i x y : get a i = Ok x -> get b i = Ok y -> get (combine a b) i = Ok (x, y).
Proof.
  rewrite !get_ok. revert b i. induction a as [|u a IH]; intros [|v b] [|i]; cbn; try discriminate. { intros [= ->] [= ->]; reflexivity. } apply IH.
Qed.
Lemma loop2_map {A B C} (zero : C) (g : A -> B -> C) N a b : length a = N -> length b = N ->
  loop2 zero g N a b = Ok (map (fun p => g (fst p) (snd p)) (combine a b)).
Proof.
  intros Ha Hb. unfold loop2. apply from_result_ok. rewrite map_length, combine_length. split; [lia|]. intros i Hi.
  destruct (get_lt_ok a i ltac:(lia)) as [x Hx]. destruct (get_lt_ok b i ltac:(lia)) as [y Hy]. rewrite get_map, (get_combine _ _ _ _ _ Hx Hy), Hx, Hy. reflexivity.
Qed.
Lemma loop3_map {A B C D} (zero : D) (g : A -> B -> C -> D) N a b c : length a = N -> length b = N -> length c = N ->
  loop3 zero g N a b c = Ok (map (fun p => g (fst (fst p)) (snd (fst p)) (snd p)) (combine (combine a b) c)).
Proof.
  intros Ha Hb Hc. unfold loop3. apply from_result_ok. rewrite map_length, !combine_length. split; [lia|]. intros i Hi.
  destruct (get_lt_ok a i ltac:(lia)) as [x Hx]. destruct (get_lt_ok b i ltac:(lia)) as [y Hy]. destruct (get_lt_ok c i ltac:(lia)) as [w Hw].
  rewrite get_map, (get_combine _ _ _ _ _ (get_combine _ _ _ _ _ Hx Hy) Hw), Hx, Hy, Hw. reflexivity.
Qed.
(** two arrays filled by the same loop *)
Lemma fill_two {A B} (h : nat -> res (A * B)) N q r lq lr :
  length q = N -> length r = N -> length lq = N -> length lr = N -> (forall i, i < N -> exists u v, h i = Ok (u, v) /\ get lq i = Ok u /\ get lr i = Ok v) ->
  for_up 0 N (fun i s => p <- h i;; q' <- set (fst s) i (fst p);; r' <- set (snd s) i (snd p);; Ok (q', r')) (q, r) = Ok (lq, lr).
Proof.
  intros Hq Hr Lq Lr H.
  assert (G : forall k, k <= N -> exists q' r', for_up 0 k (fun i s => p <- h i;; q' <- set (fst s) i (fst p);; r' <- set (snd s) i (snd p);; Ok (q', r')) (q, r) = Ok (q', r')
     /\ length q' = N /\ length r' = N /\ forall i, i < k -> get q' i = get lq i /\ get r' i = get lr i).
  { induction k as [|k IH]; intros Hk. { exists q, r. repeat split; auto; intros; lia. }
    destruct (IH ltac:(lia)) as (q' & r' & E & L1 & L2 & G). destruct (H k ltac:(lia)) as (u & v & Hh & Hu & Hv).
    destruct (set_lt_ok q' k u ltac:(lia)) as [q2 Q2]. destruct (set_lt_ok r' k v ltac:(lia)) as [r2 R2].
    exists q2, r2. replace (S k) with (k + 1) by lia. rewrite for_up_snoc by lia. rewrite E. cbn [bind]. rewrite Hh. cbn [bind fst snd]. rewrite Q2. cbn [bind]. rewrite R2. cbn [bind].
    split; auto. apply set_ok_iff in Q2, R2. destruct Q2 as (B1 & B2 & B3 & B4), R2 as (D1 & D2 & D3 & D4).
    repeat split; try lia.
    - destruct (Nat.eq_dec i k) as [-> |]; [congruence|]. rewrite B4 by auto. apply G. lia.
    - destruct (Nat.eq_dec i k) as [-> |]; [congruence|]. rewrite D4 by auto. apply G. lia. }
  destruct (G N ltac:(lia)) as (q' & r' & E & L1 & L2 & H'). rewrite E. f_equal. f_equal; apply list_get_ext; try lia; intros i Hi; apply H'; lia.
Qed.
Lemma loop_out_map {A B C} (zb : B) (zc : C) (g : A -> B * C) N x o : length x = N -> length o = N ->
  loop_out zb zc g N x o = Ok (map (fun v => fst (g v)) x, map (fun v => snd (g v)) x).
Proof.
  intros Hx Ho. unfold loop_out.
  assert (E : for_up 0 N (fun i s => v <- get x i;; q' <- set (fst s) i (snd (g v));; r' <- set (snd s) i (fst (g v));; Ok (q', r')) (repeat zc N, repeat zb N)
    = Ok (map (fun v => snd (g v)) x, map (fun v => fst (g v)) x)).
  { rewrite <- (fill_two (fun i => rmap (fun v => (snd (g v), fst (g v))) (get x i)) N (repeat zc N) (repeat zb N)); rewrite ?map_length, ?repeat_length; auto.
    - unfold for_up. generalize (repeat zc N, repeat zb N). generalize 0 at 2 4. induction (N - 0) as [|n IH]; intros i s; cbn [for_n]; auto.
      unfold rmap. destruct (get x i) as [v|]; cbn [bind fst snd]; auto. destruct (set (fst s) i (snd (g v))); cbn [bind]; auto. destruct (set (snd s) i (fst (g v))); cbn [bind]; auto.
    - intros i Hi. destruct (get_lt_ok x i ltac:(lia)) as [v Hv]. exists (snd (g v)), (fst (g v)). rewrite !get_map, Hv. repeat split. }
  rewrite E. cbn [bind]. rewrite (copy_from_id N (map (fun v => snd (g v)) x)) by (rewrite ?map_length; lia). cbn [bind]. rewrite (copy_from_id N (map (fun v => fst (g v)) x)) by (rewrite ?map_length, ?repeat_length; lia). cbn [bind skipn].
  rewrite !firstn_exact by (rewrite map_length; auto). reflexivity.
Qed.
Lemma loop_out2_map {A B C} (zb : B) (zc : C) (g : A -> A -> B * C) N a b o : length a = N -> length b = N -> length o = N ->
  loop_out2 zb zc g N a b o = Ok (map (fun p => fst (g (fst p) (snd p))) (combine a b), map (fun p => snd (g (fst p) (snd p))) (combine a b)).
Proof.
  intros Ha Hb Ho. assert (Hc : length (combine a b) = N) by (rewrite combine_length; lia).
  rewrite <- (loop_out_map zb zc (fun p => g (fst p) (snd p)) N (combine a b) o Hc Ho). unfold loop_out2, loop_out.
  match goal with |- bind ?l _ = bind ?r _ => assert (E : l = r); [|now rewrite E] end.
  unfold for_up. cut (forall n i s, i + n <= N -> for_n n i (fun i0 s0 => v <- get a i0;; w <- get b i0;; q' <- set (fst s0) i0 (snd (g v w));; r' <- set (snd s0) i0 (fst (g v w));; Ok (q', r')) s
     = for_n n i (fun i0 s0 => v <- get (combine a b) i0;; q' <- set (fst s0) i0 (snd (g (fst v) (snd v)));; r' <- set (snd s0) i0 (fst (g (fst v) (snd v)));; Ok (q', r')) s).
  { intros Q. apply Q. lia. }
  induction n as [|n IH]; intros i s Hi; cbn [for_n]; auto. destruct (get_lt_ok a i ltac:(lia)) as [v Hv]. destruct (get_lt_ok b i ltac:(lia)) as [w Hw].
  rewrite (get_combine _ _ _ _ _ Hv Hw), Hv, Hw. cbn [bind fst snd]. destruct (set (fst s) i (snd (g v w))); cbn [bind]; auto. destruct (set (snd s) i (fst (g v w))); cbn [bind]; auto. apply IH. lia.
Qed.
Lemma convert_map {A B} (zb : B) (c : A -> B) N x : length x = N -> convert (fun v => Ok (c v)) zb N x = Ok (map c x).
Proof. intros H. unfold convert. now apply copy_from_conv. Qed.

(** *** C61 *)
(** Every function applies the <cmath> function of its own name to every element; out-parameters receive the second result, whatever they held before. *)
Theorem C61_elementwise_one : forall T LD (L : cmath T LD) z N x, length x = N ->
  (forall f, g_math1 L z N f x = Ok (map (std1 L f) x)) /\
  (forall f, g_math1i L N f x = Ok (map (std1i L f) x)) /\
  (forall f, g_math1b L N f x = Ok (map (std1b L f) x)) /\
  (forall f e, g_math2is L z N f x e = Ok (map (fun v => std2i L f v e) x)) /\
  (forall f b, f <> Fmin -> f <> Hypot -> f <> Atan2 -> f <> Nextafter -> g_math2s L z N f x b = Some (Ok (map (fun v => std2 L f v b) x))) /\
  (forall o, length o = N -> g_frexp L z N x o = Ok (map (fun v => fst (std_frexp L v)) x, map (fun v => snd (std_frexp L v)) x)) /\
  (forall o, length o = N -> g_modf L z N x o = Ok (map (fun v => fst (std_modf L v)) x, map (fun v => snd (std_modf L v)) x)) /\
  g_sincos L z N x = Ok (map (std1 L Sin) x, map (std1 L Cos) x).
Proof.
  intros T LD L z N x H. repeat split.
  - intros []; apply loop1_map; auto.
  - intros []; apply loop1_map; auto.
  - intros []; apply loop1_map; auto.
  - intros [] e; apply (loop1_map z); auto.
  - intros [] b N1 N2 N3 N4; try contradiction; cbn [g_math2s]; f_equal; apply (loop1_map z); auto.
  - intros o Ho. apply loop_out_map; auto.
  - intros o Ho. apply loop_out_map; auto.
  - unfold g_sincos. cbn [g_math1]. rewrite !loop1_map by auto. reflexivity.
Qed.
Print Assumptions C61_elementwise_one.
Theorem C61_elementwise_two : forall T LD (L : cmath T LD) z N a b, length a = N -> length b = N ->
  (forall f, g_math2 L z N f a b = Ok (map (fun p => std2 L f (fst p) (snd p)) (combine a b))) /\
  (forall f, g_math2b L N f a b = Ok (map (fun p => std2b L f (fst p) (snd p)) (combine a b))) /\
  (forall f e, length e = N -> g_math2i L z N f a e = Ok (map (fun p => std2i L f (fst p) (snd p)) (combine a e))) /\
  (forall c, length c = N -> g_nexttoward L z N a c = Ok (map (fun p => std_nexttoward L (fst p) (snd p)) (combine a c))) /\
  (forall f, g_lerp_s L z N a b f = Ok (map (fun p => std_lerp L (fst p) (snd p) f) (combine a b))) /\
  (forall f, length f = N -> g_lerp L z N a b f = Ok (map (fun p => std_lerp L (fst (fst p)) (snd (fst p)) (snd p)) (combine (combine a b) f))) /\
  (forall o, length o = N -> g_remquo L z N a b o
     = Ok (map (fun p => fst (std_remquo L (fst p) (snd p))) (combine a b), map (fun p => snd (std_remquo L (fst p) (snd p))) (combine a b))).
Proof.
  intros T LD L z N a b Ha Hb. repeat split.
  - intros []; apply loop2_map; auto.
  - intros []; apply loop2_map; auto.
  - intros [] e He; apply loop2_map; auto.
  - intros c Hc. apply loop2_map; auto.
  - intros f. unfold g_lerp_s. now rewrite loop2_map.
  - intros f Hf. apply loop3_map; auto.
  - intros o Ho. apply loop_out2_map; auto.
Qed.
Print Assumptions C61_elementwise_two.
(** Promoted overloads: each argument converted element by element (c, c0, c1, c2 are the scalar conversions), then the promoted function. *)
Theorem C61_promoted : forall A A0 A1 A2 B R (c : A -> B) (c0 : A0 -> B) (c1 : A1 -> B) (c2 : A2 -> B) z N,
  (forall (f : list B -> res R) x, length x = N -> promote1 c z N f x = f (map c x)) /\
  (forall (f : list B -> list B -> res R) a b, length a = N -> length b = N -> promote2 c0 c1 z N f a b = f (map c0 a) (map c1 b)) /\
  (forall (f : list B -> list B -> list B -> res R) a b d, length a = N -> length b = N -> length d = N ->
     promote3 c0 c1 c2 z N f a b d = f (map c0 a) (map c1 b) (map c2 d)).
Proof.
  intros. repeat split; intros; unfold promote1, promote2, promote3; rewrite !convert_map by auto; reflexivity.
Qed.
Print Assumptions C61_promoted.
(** fmadd, fmsub, fnmadd, fnmsub (and fma), rcp and rsqrt are written with the operators: element by element the C++ expression
    a * b + c, a * b - c, c - a * b, -(a * b) - c, 1 / x, 1 / sqrt(x) (two roundings, not fused); undefined exactly when one of them is. *)
Definition fm_expr (T : scalar) (o : fm) (x y z : elt T) : res (elt T) :=
  p <- sc_bin T OpMul x y;;
  match o with
  | Fmadd => sc_bin T OpAdd p z
  | Fmsub => sc_bin T OpSub p z
  | Fnmadd => sc_bin T OpSub z p
  | Fnmsub => n <- sc_neg T p;; sc_bin T OpSub n z
  end.
Lemma ew2_get {A B C} N (f : A -> B -> res C) a b r i x y : elementwise2 N f a b (Ok r) -> get a i = Ok x -> get b i = Ok y -> i < N ->
  exists z, f x y = Ok z /\ get r i = Ok z.
Proof. intros [_ H] Hx Hy Hi. apply nth_get in Hx, Hy. destruct (H i x y Hi Hx Hy) as (z & E & G). exists z. split; auto. now apply nth_get. Qed.
Theorem C61_fused_forms : forall T o N a b c, length a = N -> length b = N -> length c = N ->
  elementwise3 N (fm_expr T o) a b c (g_fm T N o a b c).
Proof.
  intros T o N a b c Ha Hb Hc. unfold g_fm.
  pose proof (simd_binary_elementwise T OpMul N a b Ha Hb) as M. destruct (simd_binary T OpMul N a b) as [ab|] eqn:E1; cbn [bind].
  2:{ cbn [elementwise2] in M. destruct M as (i & x & y & Hi & Hx & Hy & U). destruct (get_lt_ok c i ltac:(lia)) as [w Hw]. apply nth_get in Hw.
      exists i, x, y, w. repeat split; auto. unfold fm_expr. now rewrite U. }
  assert (Lab : length ab = N) by apply M.
  assert (K : forall (r : res (list (elt T))) (h : elt T -> elt T -> res (elt T)), elementwise2 N h ab c r ->
     (forall x y z p, sc_bin T OpMul x y = Ok p -> fm_expr T o x y z = h p z) -> elementwise3 N (fm_expr T o) a b c r).
  { intros r h H Q. destruct r as [r|]; cbn [elementwise3].
    - split; [apply H|]. intros i x y w Hi Hx Hy Hw. apply nth_get in Hx, Hy, Hw. destruct (ew2_get _ _ _ _ _ _ _ _ M Hx Hy Hi) as (p & P1 & P2).
      destruct (ew2_get _ _ _ _ _ _ _ _ H P2 Hw Hi) as (v & V1 & V2). exists v. rewrite (Q _ _ _ _ P1). split; auto. now apply nth_get.
    - destruct H as (i & p & w & Hi & Hp & Hw & U). destruct (get_lt_ok a i ltac:(lia)) as [x Hx]. destruct (get_lt_ok b i ltac:(lia)) as [y Hy].
      destruct (ew2_get _ _ _ _ _ _ _ _ M Hx Hy Hi) as (p' & P1 & P2). apply nth_get in Hx, Hy, P2. assert (p' = p) by congruence. subst p'.
      exists i, x, y, w. repeat split; auto. rewrite (Q _ _ _ _ P1). auto. }
  destruct o.
  - apply (K _ (sc_bin T OpAdd)). { now apply simd_binary_elementwise. } intros x y z p P. unfold fm_expr. now rewrite P.
  - apply (K _ (sc_bin T OpSub)). { now apply simd_binary_elementwise. } intros x y z p P. unfold fm_expr. now rewrite P.
  - apply (K _ (fun p z => sc_bin T OpSub z p)). 2:{ intros x y z p P. unfold fm_expr. now rewrite P. }
    pose proof (simd_binary_elementwise T OpSub N c ab Hc Lab) as Q. destruct (simd_binary T OpSub N c ab) as [r|]; cbn [elementwise2] in *.
    + split; [apply Q|]. intros i p w Hi Hp Hw. apply Q; auto.
    + destruct Q as (i & w & p & Hi & Hw & Hp & U). exists i, p, w. auto.
  - apply (K _ (fun p z => n <- sc_neg T p;; sc_bin T OpSub n z)). 2:{ intros x y z p P. unfold fm_expr. now rewrite P. }
    pose proof (simd_neg_elementwise T N ab Lab) as Q. destruct (simd_neg T N ab) as [n|] eqn:E2; cbn [bind].
    + assert (Ln : length n = N) by apply Q. pose proof (simd_binary_elementwise T OpSub N n c Ln Hc) as S. destruct (simd_binary T OpSub N n c) as [r|]; cbn [elementwise2] in *.
      * split; [apply S|]. intros i p w Hi Hp Hw. destruct Q as [_ Q]. destruct (Q i p Hi Hp) as (v & V1 & V2). destruct S as [_ S]. destruct (S i v w Hi V2 Hw) as (u & U1 & U2).
        exists u. rewrite V1. auto.
      * destruct S as (i & v & w & Hi & Hv & Hw & U). destruct Q as [_ Q]. destruct (get_lt_ok ab i ltac:(lia)) as [p Hp]. apply nth_get in Hp.
        destruct (Q i p Hi Hp) as (v' & V1 & V2). assert (v' = v) by congruence. subst v'. exists i, p, w. rewrite V1. auto.
    + destruct Q as (i & p & Hi & Hp & U). destruct (get_lt_ok c i ltac:(lia)) as [w Hw]. apply nth_get in Hw. exists i, p, w. rewrite U. auto.
Qed.
Print Assumptions C61_fused_forms.
Theorem C61_rcp : forall T LD (L : cmath (elt T) LD) N x, length x = N ->
  elementwise1 N (fun v => sc_bin T OpDiv (sc_one T) v) x (g_rcp T N x) /\
  elementwise1 N (fun v => sc_bin T OpDiv (sc_one T) (std1 L Sqrt v)) x (g_rsqrt T N L x).
Proof.
  intros T LD L N x Hx.
  assert (R : forall y, length y = N -> elementwise1 N (fun v => sc_bin T OpDiv (sc_one T) v) y (g_rcp T N y)).
  { intros y Hy. unfold g_rcp. rewrite broadcast_spec by apply repeat_length. cbn [bind].
    assert (G : forall i, i < N -> nth_error (repeat (sc_one T) N) i = Some (sc_one T)) by (intros; now apply nth_error_repeat).
    pose proof (simd_binary_elementwise T OpDiv N (repeat (sc_one T) N) y ltac:(apply repeat_length) Hy) as Q.
    destruct (simd_binary T OpDiv N (repeat (sc_one T) N) y) as [r|]; cbn [elementwise2 elementwise1] in *.
    - split; [apply Q|]. intros i v Hi Hv. apply Q; auto.
    - destruct Q as (i & o & v & Hi & Ho & Hv & U). rewrite G in Ho by auto. inversion Ho; subst. exists i, v. auto. }
  split; auto. unfold g_rsqrt. cbn [g_math1]. rewrite loop1_map by auto. cbn [bind]. specialize (R (map (std1 L Sqrt) x)). rewrite map_length in R. specialize (R Hx).
  destruct (g_rcp T N (map (std1 L Sqrt) x)) as [r|]; cbn [elementwise1] in *.
  - split; [apply R|]. intros i v Hi Hv. apply R; auto. rewrite nth_error_map, Hv. reflexivity.
  - destruct R as (i & v & Hi & Hv & U). rewrite nth_error_map in Hv. destruct (nth_error x i) as [w|] eqn:E; cbn in Hv; inversion Hv; subst. exists i, w. auto.
Qed.
Print Assumptions C61_rcp.
(** instance: int32 vectors; -(2 * 3) - 4 etc.; and a product that overflows makes the call undefined *)
Example C61_case : let T := int_scalar int32 in
  g_fm T 2 Fnmsub [2; 5]%Z [3; 1]%Z [4; 0]%Z = Ok [4294967286; 4294967291]%Z /\
  g_fm T 2 Fnmadd [2; 5]%Z [3; 1]%Z [4; 0]%Z = Ok [4294967294; 4294967291]%Z /\
  g_fm T 2 Fmadd [65536; 5]%Z [65536; 1]%Z [4; 0]%Z = UB.
Proof. cbv zeta. repeat split. Qed.

(** *** C62, C63: through integer types *)
(** a float holding the integer n converts to it, or is out of range *)
Lemma cast_int nn f w y n : (0 < w)%Z -> isfin f y = true -> val f y = IZR n ->
  cast_f2i nn f w y = if ((- 2 ^ (w - 1) <=? n) && (n <? 2 ^ (w - 1)))%Z then Ok (wrap w n) else UB.
Proof.
  intros Hw Fy Vy. unfold cast_f2i. rewrite Fy. cbn [andb].
  assert (E : Btrunc _ _ (dec f y) = n).
  { apply eq_IZR. rewrite Btrunc_correct by apply Hprec_emax. unfold val in Vy. rewrite Vy.
    unfold round, scaled_mantissa, cexp, FIX_exp, F2R. cbn [Fnum Fexp bpow Z.opp]. rewrite !Rmult_1_r, Ztrunc_IZR. reflexivity. }
  rewrite E. reflexivity.
Qed.
Lemma fits_dec w n : ((- 2 ^ (w - 1) <=? n) && (n <? 2 ^ (w - 1)))%Z = true <-> fits w n.
Proof. unfold fits. lia. Qed.
Lemma cast_round_ok nn f md w x : (0 < w)%Z -> word (fw f) x -> isfin f x = true -> fits w (round_mode md (val f x)) ->
  cast_f2i nn f w (fround nn f md x) = Ok (wrap w (round_mode md (val f x))).
Proof.
  intros Hw Hx Fx R. pose proof (@fround_ok f nn md x Hx) as Q. unfold rounds_to in Q. rewrite (fin_nan _ Fx), Fx in Q. destruct Q as (Fy & Vy & _).
  rewrite (cast_int nn f w _ _ Hw Fy Vy). apply fits_dec in R. now rewrite R.
Qed.
Lemma cast_round_ub nn f md w x : (0 < w)%Z -> word (fw f) x -> isfin f x = false \/ ~ fits w (round_mode md (val f x)) ->
  cast_f2i nn f w (fround nn f md x) = UB.
Proof.
  intros Hw Hx C. pose proof (@fround_ok f nn md x Hx) as Q. unfold rounds_to in Q. destruct (isnanb f x) eqn:N.
  { unfold cast_f2i. assert (isfin f (fround nn f md x) = false) as ->; auto. destruct (isfin f (fround nn f md x)) eqn:E; auto. apply fin_nan in E. congruence. }
  destruct (isfin f x) eqn:F.
  - destruct Q as (Fy & Vy & _). rewrite (cast_int nn f w _ _ Hw Fy Vy). destruct ((_ <=? _)%Z && _)%bool eqn:D; auto. apply fits_dec in D. destruct C as [C|C]; [discriminate|contradiction].
  - rewrite Q. unfold cast_f2i. now rewrite F.
Qed.
Lemma Znear_away r : round_mode mode_NA r = away r.
Proof.
  cbn [round_mode]. symmetry. apply spec_away. pose proof (Znearest_half (Z.leb 0) r) as H. apply Rabs_le_inv in H.
  assert (T : forall n, r = (IZR n + / 2)%R -> Znearest (Z.leb 0) r = if (0 <=? n)%Z then (n + 1)%Z else n).
  { intros n Hn. assert (F : Zfloor r = n) by (apply spec_floor; lra). assert (C : Zceil r = (n + 1)%Z) by (apply spec_ceil; rewrite plus_IZR; lra).
    unfold Znearest. rewrite F, C. rewrite Rcompare_Eq by lra. reflexivity. }
  set (m := Znearest (Z.leb 0) r) in *.
  destruct (Rle_bool_spec 0 r) as [L|L].
  - split; [lra|]. destruct (Rlt_le_dec r (IZR m + / 2)) as [|G]; auto. exfalso. assert (Hm : r = (IZR m + / 2)%R) by lra. specialize (T m Hm). unfold m in T at 1. fold m in T.
    assert (0 <= m)%Z. { apply le_IZR. destruct (Z_le_gt_dec 0 m) as [g|g]; [now apply IZR_le|]. assert (IZR m <= -1)%R by (apply IZR_le; lia). lra. }
    replace (0 <=? m)%Z with true in T by lia. lia.
  - split; [|lra]. destruct (Rlt_le_dec (IZR m - / 2) r) as [|G]; auto. exfalso. assert (Hm : r = (IZR (m - 1) + / 2)%R) by (rewrite minus_IZR; lra). specialize (T (m - 1)%Z Hm). fold m in T.
    assert (m - 1 < 0)%Z. { apply lt_IZR. lra. } replace (0 <=? m - 1)%Z with false in T by lia. lia.
Qed.
Lemma f2_len {A B} (P : A -> B -> Prop) x r : Forall2 P x r -> length x = length r.
Proof. induction 1; cbn; auto. Qed.
Lemma fill_each {A B} (zero : B) (h : A -> res B) N x (P : A -> B -> Prop) : length x = N ->
  (forall v, In v x -> exists y, h v = Ok y /\ P v y) ->
  exists r, fill N (fun i => v <- get x i;; h v) (repeat zero N) = Ok r /\ Forall2 P x r.
Proof.
  intros HL H. assert (G : exists r, Forall2 (fun v y => h v = Ok y /\ P v y) x r).
  { clear HL. induction x as [|v x IH]; [exists []; constructor|]. destruct IH as [r Hr]. { intros; apply H; now right. }
    destruct (H v (or_introl eq_refl)) as [y Hy]. exists (y :: r). constructor; auto. }
  destruct G as [r Hr]. exists r. split.
  - apply fill_fresh. { rewrite <- (f2_len _ _ _ Hr). auto. } intros i Hi. destruct (get_lt_ok x i ltac:(lia)) as [v Hv]. rewrite Hv. cbn [bind].
    clear - Hr Hv. revert i Hv. induction Hr as [|a b x r [E _] Hr IH]; intros [|i] Hv; try discriminate. { rewrite get_cons_0 in Hv. rewrite get_cons_0. congruence. } rewrite get_cons_S in Hv. rewrite get_cons_S. auto.
  - clear -Hr. induction Hr as [|a b x r [_ E] Hr IH]; constructor; auto.
Qed.
Lemma fill_exists_ub {A B} (zero : B) (h : A -> res B) N x : length x = N -> Exists (fun v => h v = UB) x ->
  fill N (fun i => v <- get x i;; h v) (repeat zero N) = UB.
Proof.
  intros HL H. apply fill_ub_iff. { rewrite repeat_length; auto. } apply Exists_exists in H. destruct H as (v & Hv & U). apply In_nth_error in Hv. destruct Hv as [i Hi].
  assert (i < length x) by (apply nth_error_Some; congruence). exists i. split; [lia|]. apply nth_get in Hi. now rewrite Hi.
Qed.
Lemma Forall2_map_r {A B C} (P : A -> C -> Prop) (g : B -> C) x r : Forall2 (fun a b => P a (g b)) x r -> Forall2 P x (map g r).
Proof. induction 1; cbn; constructor; auto. Qed.

(** rint: where every element rounds into the range of long the result is the right integer ... *)
Theorem C62_rint_partial : forall nn f lw N x, lw = 32%Z \/ lw = 64%Z -> length x = N ->
  Forall (fun v => word (fw f) v /\ isfin f v = true /\ fits lw (ZnearestE (val f v))) x ->
  exists r, g_rint nn f lw N x = Ok r /\
    Forall2 (fun v y => rounds_val f ZnearestE v y /\ (ZnearestE (val f v) <> 0%Z -> rounds_to f ZnearestE v y)) x r.
Proof.
  intros nn f lw N x Hl HL H. assert (Hw : (0 < lw)%Z) by (destruct Hl; lia). unfold g_rint.
  destruct (@fill_each Z Z 0%Z (fun v => cast_f2i nn f lw (fround nn f mode_NE v)) N x
    (fun v l => let y := fof_int f (sgn lw l) in rounds_val f ZnearestE v y /\ (ZnearestE (val f v) <> 0%Z -> rounds_to f ZnearestE v y)) HL) as (r & E & Hr).
  { intros v Hv. rewrite Forall_forall in H. destruct (H v Hv) as (Wv & Fv & R). eexists. split. { apply (cast_round_ok nn f mode_NE lw v); auto. }
    cbv zeta. cbn [round_mode]. set (n := ZnearestE (val f v)) in *. rewrite sgn_wrap by (auto; unfold fits in R; lia).
    destruct (@fof_int_ok f n) as (Wy & Fy & Vy & Sy). { unfold fits in R. destruct Hl as [-> | ->]; cbn in R |- *; lia. }
    assert (Vn : val f (fof_int f n) = IZR n). { rewrite Vy. apply rnd_id. pose proof (@fmt_round f nn mode_NE v Wv Fv) as G. exact G. }
    split. { split; auto. } intros Nz. unfold rounds_to. rewrite (fin_nan _ Fv), Fv. repeat split; auto. rewrite Sy. fold n in Nz.
    pose proof (@fround_ok f nn mode_NE v Wv) as Q. unfold rounds_to in Q. rewrite (fin_nan _ Fv), Fv in Q. destruct Q as (Ft & Vt & St). rewrite <- St. cbn [round_mode] in Vt. fold n in Vt.
    set (t := fround nn f mode_NE v) in *. assert (Wt : word (fw f) t) by apply enc_word. pose proof (sign_val Wt Ft) as SV. rewrite Vt in SV.
    destruct (fsign (fw f) t); [assert (n <= 0)%Z by (now apply le_IZR)|assert (0 <= n)%Z by (now apply le_IZR)]; lia. }
  rewrite E. cbn [bind]. rewrite copy_from_conv. 2:{ rewrite <- (f2_len _ _ _ Hr). auto. } exists (map (fun l => fof_int f (sgn lw l)) r). split; auto. apply Forall2_map_r. exact Hr.
Qed.
Print Assumptions C62_rint_partial.
(** ... but a NaN, an infinity or a value outside the range of long makes the call undefined (std::rint returns such elements unchanged) ... *)
Theorem C62_rint_range_refuted : forall nn f lw N x, lw = 32%Z \/ lw = 64%Z -> length x = N -> Forall (word (fw f)) x ->
  Exists (fun v => isfin f v = false \/ ~ fits lw (ZnearestE (val f v))) x -> g_rint nn f lw N x = UB.
Proof.
  intros nn f lw N x Hl HL HW H. assert (Hw : (0 < lw)%Z) by (destruct Hl; lia). unfold g_rint.
  rewrite (fill_exists_ub 0%Z (fun v => cast_f2i nn f lw (fround nn f mode_NE v))); auto.
  apply Exists_exists in H. destruct H as (v & Hv & C). apply Exists_exists. exists v. split; auto. rewrite Forall_forall in HW. apply cast_round_ub; auto.
Qed.
Print Assumptions C62_rint_range_refuted.
(** ... and a negative element (or -0) that rounds to zero gives +0 instead of -0. *)
Theorem C62_rint_sign_refuted : forall nn f lw N x i v, lw = 32%Z \/ lw = 64%Z -> length x = N ->
  Forall (fun v => word (fw f) v /\ isfin f v = true /\ fits lw (ZnearestE (val f v))) x ->
  nth_error x i = Some v -> fsign (fw f) v = true -> ZnearestE (val f v) = 0%Z ->
  exists r, g_rint nn f lw N x = Ok r /\ nth_error r i = Some 0%Z /\ ~ rounds_to f ZnearestE v 0%Z.
Proof.
  intros nn f lw N x i v Hl HL H Hi Sv Zv. assert (Hw : (0 < lw)%Z) by (destruct Hl; lia). unfold g_rint.
  destruct (@fill_each Z Z 0%Z (fun v => cast_f2i nn f lw (fround nn f mode_NE v)) N x (fun v l => l = wrap lw (ZnearestE (val f v))) HL) as (r & E & Hr).
  { intros u Hu. rewrite Forall_forall in H. destruct (H u Hu) as (Wu & Fu & R). eexists. split; [|reflexivity]. apply (cast_round_ok nn f mode_NE lw u); auto. }
  rewrite E. cbn [bind]. rewrite copy_from_conv. 2:{ rewrite <- (f2_len _ _ _ Hr). auto. } eexists. split; [reflexivity|]. split.
  - rewrite nth_error_map. assert (G : nth_error r i = Some (wrap lw (ZnearestE (val f v)))).
    { clear - Hr Hi. revert i Hi. induction Hr as [|a b x r Q Hr IH]; intros [|i] Hi; try discriminate; cbn in *; [congruence|auto]. }
    rewrite G, Zv. cbn [option_map]. replace (sgn lw (wrap lw 0)) with 0%Z by (destruct Hl as [-> | ->]; reflexivity). f_equal. destruct f; vm_compute; reflexivity.
  - rewrite Forall_forall in H. destruct (H v (nth_error_In _ _ Hi)) as (Wv & Fv & _). unfold rounds_to. rewrite (fin_nan _ Fv), Fv, Sv. intros (_ & _ & S). destruct f; discriminate S.
Qed.
Print Assumptions C62_rint_sign_refuted.

(** the rounded value of every element that fits the target type *)
Definition to_ints (w : Z) (g : R -> Z) (f : fmt) (x r : list Z) : Prop :=
  Forall2 (fun v n => isfin f v = true -> fits w (g (val f v)) -> sgn w n = g (val f v)) x r.
Lemma toint_ok nn f u md w v : (0 < w)%Z -> word (fw f) v -> isfin f v = true -> fits w (round_mode md (val f v)) ->
  sgn w (std_toint nn f u md w v) = round_mode md (val f v).
Proof.
  intros Hw Wv Fv R. pose proof (@fto_int_ok nn f md w v Hw Wv Fv R) as Q. unfold fto_int in Q. unfold std_toint. cbv zeta in *.
  destruct (isfin f v && _ && _) eqn:B. { rewrite Q. apply sgn_wrap; auto. }
  exfalso. assert (E : Btrunc _ _ (Bnearbyint _ _ (Hprec_emax f) (n1 nn f) md (dec f v)) = round_mode md (val f v)).
  { apply eq_IZR. rewrite Btrunc_correct by apply Hprec_emax.
    destruct (@fround_fin nn f md v Wv Fv) as (C1 & _). unfold fround in C1. rewrite val_enc in C1. rewrite C1.
    unfold round, scaled_mantissa, cexp, FIX_exp, F2R. cbn [Fnum Fexp bpow Z.opp]. rewrite !Rmult_1_r, Ztrunc_IZR. reflexivity. }
  rewrite E, Fv in B. unfold fits in R. lia.
Qed.
Lemma fits_le w v n : (0 < w <= v)%Z -> fits w n -> fits v n.
Proof. intros H. unfold fits. assert (2 ^ (w - 1) <= 2 ^ (v - 1))%Z by (apply Z.pow_le_mono_r; lia). lia. Qed.
Lemma narrow_ok nn f u md lw w v : (0 < w <= lw)%Z -> word (fw f) v -> isfin f v = true -> fits w (round_mode md (val f v)) ->
  sgn w (icast lw w (std_toint nn f u md lw v)) = round_mode md (val f v).
Proof.
  intros Hw Wv Fv R. unfold icast. rewrite toint_ok; auto; [|lia|now apply (fits_le w lw)]. apply sgn_wrap; [lia|exact R].
Qed.
Lemma fill_total {A B} (zero : B) (h : A -> B) N x (P : A -> B -> Prop) : length x = N -> (forall v, In v x -> P v (h v)) ->
  exists r, fill N (fun i => v <- get x i;; Ok (h v)) (repeat zero N) = Ok r /\ Forall2 P x r.
Proof. intros HL H. apply (fill_each zero (fun v => Ok (h v))); auto. intros v Hv. eexists. split; [reflexivity|auto]. Qed.
Lemma fill_if {A} (f g : nat -> res A) N d : (forall i, f i = g i) -> fill N f d = fill N g d.
Proof. intros H. unfold fill, for_up. generalize 0 at 2 4. revert d. induction (N - 0) as [|n IH]; intros d i; cbn [for_n]; auto. rewrite H. destruct (v <- g i;; set d i v) as [d'|]; cbn [bind]; auto. Qed.
Lemma from_result_map {A B} (zero : B) (h : A -> B) N x (P : A -> B -> Prop) : length x = N -> (forall v, In v x -> P v (h v)) ->
  exists r, from_result zero N (fun i => v <- get x i;; Ok (h v)) = Ok r /\ Forall2 P x r.
Proof.
  intros HL H. exists (map h x). split. { now apply (loop1_map zero h). } clear HL. induction x as [|v x IH]; cbn; constructor. { apply H; now left. } apply IH. intros; apply H; now right.
Qed.

(** lround, llround, llrint, iround<I> and irint<I> are defined for every vector (I no wider than long, or long long), and give the nearest integer
    (halves away from zero, resp. to even) of every element for which it is representable in the target type. *)
Theorem C63_to_integer : forall nn f lw u w ll N x, lw = 32%Z \/ lw = 64%Z -> (0 < w)%Z -> (ll = true -> w = 64%Z) -> (w <= lw)%Z \/ ll = true ->
  length x = N -> Forall (word (fw f)) x ->
  (exists r, g_iround nn f lw u w ll N x = Ok r /\ to_ints w away f x r) /\
  (exists r, g_irint nn f lw u w ll N x = Ok r /\ to_ints w ZnearestE f x r) /\
  (exists r, g_lround nn f lw u N x = Ok r /\ to_ints lw away f x r) /\
  (exists r, g_llround nn f u N x = Ok r /\ to_ints 64 away f x r) /\
  (exists r, g_llrint nn f u N x = Ok r /\ to_ints 64 ZnearestE f x r).
Proof.
  intros nn f lw u w ll N x Hl Hw Hll Hc HL HW. rewrite Forall_forall in HW. assert (0 < lw)%Z by (destruct Hl; lia).
  assert (A : forall md (g : R -> Z), (forall r, round_mode md r = g r) -> forall v, In v x -> isfin f v = true -> fits w (g (val f v)) ->
     sgn w (if (w <=? lw)%Z then icast lw w (std_toint nn f u md lw v) else std_toint nn f u md 64 v) = g (val f v)).
  { intros md g Hg v Hv Fv R. rewrite <- Hg in *. destruct (Z.leb_spec w lw) as [L|L]. { apply narrow_ok; auto; lia. }
    destruct Hc as [Hc|Hc]; [lia|]. rewrite (Hll Hc) in *. apply toint_ok; auto; lia. }
  assert (B : forall md (g : R -> Z) v', (0 < v')%Z -> (forall r, round_mode md r = g r) -> forall v, In v x -> isfin f v = true -> fits v' (g (val f v)) ->
     sgn v' (std_toint nn f u md v' v) = g (val f v)).
  { intros md g v' Hv' Hg v Hv Fv R. rewrite <- Hg in *. apply toint_ok; auto. }
  assert (NE : forall r, round_mode mode_NE r = ZnearestE r) by reflexivity. pose proof Znear_away as NA.
  repeat split.
  - unfold g_iround, to_ints.
    rewrite (fill_if _ (fun i => v <- get x i;; Ok (if (w <=? lw)%Z then icast lw w (std_toint nn f u mode_NA lw v) else std_toint nn f u mode_NA 64 v))).
    2:{ intros i. destruct (get x i); cbn [bind]; auto. destruct (Z.leb_spec w lw); auto. destruct Hc as [?| ->]; [lia|]. reflexivity. }
    apply fill_total; [exact HL|]. intros v Hv; cbv beta. now apply A.
  - unfold g_irint, to_ints.
    rewrite (fill_if _ (fun i => v <- get x i;; Ok (if (w <=? lw)%Z then icast lw w (std_toint nn f u mode_NE lw v) else std_toint nn f u mode_NE 64 v))).
    2:{ intros i. destruct (get x i); cbn [bind]; auto. destruct (Z.leb_spec w lw); auto. destruct Hc as [?| ->]; [lia|]. reflexivity. }
    apply fill_total; [exact HL|]. intros v Hv; cbv beta. now apply A.
  - unfold g_lround, to_ints. apply from_result_map; [exact HL|]. intros; apply (B mode_NA); auto.
  - unfold g_llround, to_ints. apply from_result_map; [exact HL|]. intros; apply (B mode_NA); auto; lia.
  - unfold g_llrint, to_ints. apply from_result_map; [exact HL|]. intros; apply (B mode_NE); auto; lia.
Qed.
Print Assumptions C63_to_integer.
(** itrunc<I>, and iround<I> / irint<I> for a type wider than long other than long long: exact when every rounded element fits I, undefined otherwise. *)
Theorem C63_exact_or_undefined : forall nn f lw u w N x, lw = 32%Z \/ lw = 64%Z -> (0 < w)%Z -> length x = N -> Forall (word (fw f)) x ->
  let right g r := if List.forallb (fun v => isfin f v && (- 2 ^ (w - 1) <=? g (val f v))%Z && (g (val f v) <? 2 ^ (w - 1))%Z) x
                   then exists l, r = Ok l /\ Forall2 (fun v n => sgn w n = g (val f v)) x l else r = UB in
  right Ztrunc (g_itrunc nn f w N x) /\
  ((lw < w)%Z -> right away (g_iround nn f lw u w false N x) /\ right ZnearestE (g_irint nn f lw u w false N x)).
Proof.
  intros nn f lw u w N x Hl Hw HL HW right. rewrite Forall_forall in HW.
  assert (K : forall md g, (forall r, round_mode md r = g r) -> right g (fill N (fun i => v <- get x i;; cast_f2i nn f w (fround nn f md v)) (repeat 0%Z N))).
  { intros md g Hg. unfold right. destruct (List.forallb _ x) eqn:B.
    - rewrite List.forallb_forall in B. apply (fill_each 0%Z (fun v => cast_f2i nn f w (fround nn f md v))); auto. intros v Hv. specialize (B v Hv). rewrite <- Hg in *.
      assert (isfin f v = true /\ fits w (round_mode md (val f v))) as [Fv R]. { unfold fits. destruct (isfin f v); cbn [andb] in B; [|discriminate]. split; [reflexivity|lia]. }
      eexists. split; [apply cast_round_ok; auto|]. apply sgn_wrap; [auto|exact R].
    - apply (fill_exists_ub 0%Z (fun v => cast_f2i nn f w (fround nn f md v))); auto. apply Exists_exists.
      assert (Q : exists v, In v x /\ (isfin f v && (- 2 ^ (w - 1) <=? g (val f v))%Z && (g (val f v) <? 2 ^ (w - 1))%Z) = false).
      { clear - B. induction x as [|v x IH]; [discriminate|]. cbn [List.forallb] in B. destruct (isfin f v && _ && _) eqn:E. { destruct IH as (y & Hy & Ey); auto. exists y. split; auto. now right. } exists v. split; auto. now left. }
      destruct Q as (v & Hv & Ev). exists v. split; auto. apply cast_round_ub; auto. rewrite <- Hg in Ev. destruct (isfin f v) eqn:Fv; auto. right. cbn [andb] in Ev. unfold fits. lia. }
  split. { apply (K mode_ZR). reflexivity. } intros Hlw. split.
  - unfold g_iround. rewrite (fill_if _ (fun i => v <- get x i;; cast_f2i nn f w (fround nn f mode_NA v))). { apply (K mode_NA). apply Znear_away. }
    intros i. destruct (get x i); cbn [bind]; auto. destruct (Z.leb_spec w lw); [lia|]. reflexivity.
  - unfold g_irint. rewrite (fill_if _ (fun i => v <- get x i;; cast_f2i nn f w (fround nn f mode_NE v))). { apply (K mode_NE). reflexivity. }
    intros i. destruct (get x i); cbn [bind]; auto. destruct (Z.leb_spec w lw); [lia|]. reflexivity.
Qed.
Print Assumptions C63_exact_or_undefined.
(** instances: 2.5 rounds away to 3, to even to 2; rint(-0.25) is +0; rint of an infinity is undefined *)
Example C62_case : let half5 := 0x40200000%Z (* 2.5f *) in
  g_iround nans0 F32 64 (fun _ => 0%Z) 32 false 1 [half5] = Ok [3%Z] /\ g_irint nans0 F32 64 (fun _ => 0%Z) 32 false 1 [half5] = Ok [2%Z] /\
  g_itrunc nans0 F32 8 2 [half5; 0xC3800000%Z (* -256 *)] = UB /\ g_itrunc nans0 F32 16 2 [half5; 0xC3800000%Z] = Ok [2; 65280]%Z /\
  g_rint nans0 F32 64 2 [half5; 0xBE800000%Z (* -0.25f *)] = Ok [0x40000000; 0]%Z /\ g_rint nans0 F32 64 1 [0x7F800000%Z] = UB.
Proof. vm_compute. repeat split. Qed.

(** The generic fma is a * b + c with two roundings: for x = 1 + ulp, fma(x, x, -(1 + 2 ulp)) is +0 in every element, not the correctly rounded ulp^2. *)
Theorem C44_generic_fma_refuted : forall nn f N, exists x z r, word (fw f) x /\ word (fw f) z /\ fin3 f x x z /\
  g_fma (xscalar {| esz := Z.to_nat (fw f / 8); ek := KFloat |} (ieee nn)) N (repeat x N) (repeat x N) (repeat z N) = Ok r /\ length r = N /\
  forall y, In y r -> y = 0%Z /\ ~ correct_round f (val f x * val f x + val f z) y.
Proof.
  intros nn f N. set (x := (fone (fw f) + 1)%Z). set (z := (fone (fw f) + 2 + 2 ^ (fw f - 1))%Z). set (T := xscalar _ _).
  assert (Wx : word (fw f) x) by (unfold x, word; destruct f; cbn; lia). assert (Wz : word (fw f) z) by (unfold z, word; destruct f; cbn; lia).
  assert (F3 : fin3 f x x z) by (unfold fin3, x, z; destruct f; vm_compute; auto).
  assert (E0 : fm_expr T Fmadd x x z = Ok 0%Z). { unfold T, x, z. clear. destruct nn, f; vm_compute; reflexivity. }
  pose proof (C61_fused_forms T Fmadd N (repeat x N) (repeat x N) (repeat z N) (repeat_length _ _) (repeat_length _ _) (repeat_length _ _)) as H.
  exists x, z. unfold g_fma. destruct (g_fm T N Fmadd (repeat x N) (repeat x N) (repeat z N)) as [r|] eqn:E; cbn [elementwise3] in H.
  - destruct H as [HL H]. exists r. split; [auto|split; [auto|split; [auto|split; [auto|split; [auto|]]]]]. intros y Hy.
    apply In_nth_error in Hy. destruct Hy as [i Hi]. assert (L : i < N) by (rewrite <- HL; apply nth_error_Some; congruence).
    assert (R : forall v : Z, nth_error (repeat v N) i = Some v) by (intros; apply nth_error_repeat; auto).
    destruct (H i x x z L (R _) (R _) (R _)) as (v & Ev & Hv). rewrite E0 in Ev. inversion Ev; subst v. rewrite Hi in Hv. inversion Hv; subst y. split; auto.
    intros C. assert (Q := fma_ok nn Wx Wx Wz F3). unfold correct_round in C, Q. revert C Q.
    assert (NZ : isfin f (ffma nn f x x z) = true /\ (fmag (fw f) (ffma nn f x x z) =? 0)%Z = false) by (unfold x, z; clear; destruct nn, f; vm_compute; auto).
    destruct NZ as [NF NZ]. destruct (Rlt_bool _ _).
    + intros (_ & C) (_ & Q). assert (V0 : val f (ffma nn f x x z) = 0%R) by (rewrite Q, <- C; destruct f; cbn; ring). apply (val_zero f (@ffma_word nn f x x z) NF) in V0. lia.
    + intros C. exfalso. exact (infs_nz _ _ (eq_sym C)).
  - destruct H as (i & a & b & c & Hi & Ha & Hb & Hc & HU). rewrite nth_error_repeat in Ha, Hb, Hc by auto. inversion Ha; inversion Hb; inversion Hc; subst a b c. rewrite E0 in HU. discriminate.
Qed.
Print Assumptions C44_generic_fma_refuted.
