(** Proofs about the x86 shuffles. *)
From Coq Require Import ZifyBool ZifyNat.
From Verif Require Import Base Cxx Spec Generic GenericProofs X86Vec X86 X86Lemmas X86Proofs X86Ops X86Mem X86Reduce X86ReduceProofs X86Shuffle.
Set Implicit Arguments.

(** *** Index sequences *)
Lemma reverse_sequence_rev is : forall acc, reverse_sequence acc is = rev is ++ acc.
Proof. induction is as [|i is IH]; simpl; intros; auto. rewrite IH, <- app_assoc. auto. Qed.
Lemma extract_collect is : forall js ks P N, length js = P -> length ks <= N -> N <= length ks + length is ->
  extract_sequence js ks P N is = Some (ks ++ firstn (N - length ks) is).
Proof.
  induction is as [|i is IH]; intros js ks P N Hj H1 H2; simpl in *.
  - rewrite Hj, Nat.eqb_refl. replace (length ks =? N) with true by lia. simpl. rewrite firstn_nil, app_nil_r. auto.
  - rewrite Hj, Nat.eqb_refl. destruct (Nat.eqb_spec (length ks) N) as [E|E]; simpl.
    + rewrite E, Nat.sub_diag. simpl. rewrite app_nil_r. auto.
    + rewrite IH by (rewrite ?app_length; simpl; lia). rewrite app_length. simpl.
      replace (N - length ks) with (S (N - (length ks + 1))) by lia. simpl. rewrite <- app_assoc. auto.
Qed.
Lemma extract_skip is : forall js P N, length js <= P -> P + N <= length js + length is ->
  extract_sequence js [] P N is = Some (firstn N (skipn (P - length js) is)).
Proof.
  induction is as [|i is IH]; intros js P N H1 H2.
  - simpl in H2. rewrite extract_collect by (simpl; lia). simpl. rewrite skipn_nil. rewrite Nat.sub_0_r. auto.
  - simpl in H2. destruct (Nat.eq_dec (length js) P) as [E|E].
    + rewrite extract_collect by (simpl; lia). rewrite E, Nat.sub_diag. simpl length. rewrite Nat.sub_0_r. auto.
    + cbn [extract_sequence]. replace (length js =? P) with false by lia. cbn [andb].
      rewrite IH by (simpl; lia). simpl length. replace (P - length js) with (S (P - S (length js))) by lia. auto.
Qed.
Lemma extract_ok P N is : P + N <= length is -> extract_sequence [] [] P N is = Some (firstn N (skipn P is)).
Proof. intros H. rewrite extract_skip by (simpl; lia). simpl. rewrite Nat.sub_0_r. auto. Qed.

(** *** mapM *)
Lemma mapM_cons {A B} (f : A -> res B) x l : mapM f (x :: l) = (y <- f x;; r <- mapM f l;; Ok (y :: r)).
Proof. reflexivity. Qed.
Lemma mapM_app {A B} (f : A -> res B) l l' : mapM f (l ++ l') = (r <- mapM f l;; r' <- mapM f l';; Ok (r ++ r')).
Proof.
  induction l as [|x l IH]; simpl app.
  - cbn [mapM bind]. destruct (mapM f l'); auto.
  - rewrite !mapM_cons, IH. destruct (f x); cbn [bind]; auto. destruct (mapM f l); cbn [bind]; auto.
    destruct (mapM f l'); auto.
Qed.
Lemma mapM_ext_in {A B} (f g : A -> res B) l : (forall x, In x l -> f x = g x) -> mapM f l = mapM g l.
Proof.
  induction l as [|x l IH]; intros H; auto. rewrite !mapM_cons, H by (left; auto). rewrite IH; auto. intros; apply H; right; auto.
Qed.
Lemma mapM_nth (v : vec) l : (forall k, In k l -> k < length v) -> mapM (get v) l = Ok (pick l v).
Proof.
  induction l as [|k l IH]; intros H; auto. rewrite mapM_cons, IH by (intros; apply H; right; auto).
  rewrite get_nth_lt by (apply H; left; auto). reflexivity.
Qed.
Lemma mapM_get_ub {A} (v : list A) l k : In k l -> length v <= k -> mapM (get v) l = UB.
Proof.
  intros Hin Hk. induction l as [|i l IH]; [destruct Hin|]. rewrite mapM_cons. destruct Hin as [->|Hin].
  - rewrite (proj2 (get_ub v k)) by auto. auto.
  - rewrite IH by auto. destruct (get v i); auto.
Qed.

Section Reg.
Context (x : list vec) (e : nat) (He : 0 < e) (Hx : Forall (fun v => length v = e) x).
Lemma reg_len q v : get x q = Ok v -> length v = e.
Proof. intros H. apply get_ok, nth_error_In in H. apply (proj1 (Forall_forall _ _) Hx); auto. Qed.
Lemma get_reg i : get (concat x) i = (v <- get x (i / e);; Ok (nth (i mod e) v 0%Z)).
Proof.
  rewrite (@get_concat _ x e) by auto. destruct (get x (i / e)) as [v|] eqn:E; auto. cbn [bind].
  apply get_nth_lt. rewrite (reg_len _ E). apply Nat.mod_upper_bound. lia.
Qed.
(** A register is the e consecutive elements it holds. *)
Lemma reg_seq q : mapM (get (concat x)) (seq (q * e) e) = get x q.
Proof.
  transitivity (v <- get x q;; mapM (get v) (seq 0 e)).
  - destruct (get x q) as [v|] eqn:E; cbn [bind].
    + rewrite (mapM_ext_in _ (fun i => get v (i - q * e))).
      * replace (seq (q * e) e) with (map (fun k => q * e + k) (seq 0 e)).
        -- generalize (seq 0 e). induction l as [|k l IH]; auto. cbn [map]. rewrite !mapM_cons, IH.
           replace (q * e + k - q * e) with k by lia. auto.
        -- clear. generalize (q * e). intros b. transitivity (seq (b + 0) e); [|f_equal; lia]. generalize 0.
           induction e as [|n IH]; intros k; simpl; auto. f_equal. rewrite IH. f_equal. lia.
      * intros i Hi. apply in_seq in Hi. rewrite (@get_concat _ x e) by auto.
        replace (i / e) with q by (apply Nat.div_unique with (i - q * e); lia). rewrite E. cbn [bind]. f_equal.
        symmetry. apply Nat.mod_unique with q; lia.
    + apply mapM_get_ub with (k := q * e); [apply in_seq; lia|]. apply get_ub in E.
      rewrite (@concat_length _ x e) by auto. nia.
  - destruct (get x q) as [v|] eqn:E; auto. cbn [bind]. pose proof (reg_len _ E) as L. rewrite mapM_nth.
    + f_equal. unfold pick. rewrite <- L. clear. induction v as [|a v IH] using rev_ind; auto.
      rewrite app_length, seq_app, map_app. simpl. f_equal.
      * rewrite <- IH at 2. apply map_ext_in. intros k Hk. apply in_seq in Hk. rewrite app_nth1 by lia. auto.
      * rewrite app_nth2, Nat.sub_diag by lia. auto.
    + intros k Hk. apply in_seq in Hk. lia.
Qed.
Lemma sequential_down_spec l : forall i, sequential_down i l = true ->
  length l <= i + 1 /\ rev l = seq (i + 1 - length l) (length l).
Proof.
  induction l as [|y l IH]; intros i H; [discriminate|]. destruct l as [|z l].
  - simpl in *. apply Nat.eqb_eq in H. subst. split; [lia|]. f_equal. lia.
  - cbn [sequential_down] in H. apply andb_prop in H. destruct H as [E H]. apply Nat.eqb_eq in E. subst y.
    destruct i as [|i]; [discriminate|]. destruct (IH i H) as [L R]. split; [simpl in *; lia|].
    change (rev (S i :: z :: l)) with (rev (z :: l) ++ [S i]). rewrite R.
    change (length (S i :: z :: l)) with (S (length (z :: l))). rewrite seq_S.
    replace (S i + 1 - S (length (z :: l))) with (i + 1 - length (z :: l)) by lia. f_equal. f_equal. lia.
Qed.
Lemma sequence_shuffle_ok js : length js = e -> sequence_shuffle e js = true ->
  get x (hd 0 js / e) = mapM (get (concat x)) (rev js).
Proof.
  intros HL H. destruct js as [|i js]; [discriminate|]. unfold sequence_shuffle in H. apply andb_prop in H. destruct H as [HF HS].
  destruct (sequential_down_spec _ _ HS) as [L R]. rewrite R, HL. cbn [hd].
  rewrite <- reg_seq. f_equal. f_equal.
  (* the last index i + 1 - e lies in the same register *)
  assert (Hin : In (i + 1 - e) (i :: js)).
  { apply in_rev. rewrite R, HL. apply in_seq. lia. }
  assert (E : (i + 1 - e) / e = i / e).
  { destruct Hin as [<-|Hin]; auto. rewrite forallb_forall in HF. specialize (HF _ Hin). apply Nat.eqb_eq in HF. auto. }
  assert (L' : e <= i + 1) by (rewrite HL in L; auto).
  pose proof (Nat.div_mod i e ltac:(lia)). pose proof (Nat.mod_upper_bound i e ltac:(lia)).
  pose proof (Nat.div_mod (i + 1 - e) e ltac:(lia)). pose proof (Nat.mod_upper_bound (i + 1 - e) e ltac:(lia)). rewrite E in *. nia.
Qed.
End Reg.

(** *** The kernels: result lane k is element [rev js] k; undefined exactly when one of them is outside the storage. *)
Lemma len_lt4 (v : vec) i : length v = 4 -> i mod 4 < length v. Proof. intros ->. apply Nat.mod_upper_bound. lia. Qed.
Lemma shuf4_ok js x : Forall (fun v => length v = 4) x -> length js = 4 -> shuf4 js x = mapM (get (concat x)) (rev js).
Proof.
  intros Hx HL. do 5 (destruct js as [|? js]; try (simpl in HL; lia)). unfold shuf4. cbv zeta.
  cbn [rev app mapM]. rewrite !(@get_reg x 4) by (auto; lia).
  destruct (Nat.eqb_spec (n2 / 4) (n1 / 4)) as [E1|E1], (Nat.eqb_spec (n0 / 4) (n / 4)) as [E2|E2]; cbn [andb]; rewrite ?E1, ?E2;
    repeat match goal with |- context [get x ?q] => destruct (get x q) eqn:?; cbn [bind]; try reflexivity end.
Qed.
Lemma shuf8_ok js x : Forall (fun v => length v = 2) x -> length js = 2 -> shuf8 js x = mapM (get (concat x)) (rev js).
Proof.
  intros Hx HL. do 3 (destruct js as [|? js]; try (simpl in HL; lia)). unfold shuf8.
  cbn [rev app mapM]. rewrite !(@get_reg x 2) by (auto; lia).
  repeat match goal with |- context [get x ?q] => destruct (get x q) eqn:?; cbn [bind]; try reflexivity end.
Qed.
Lemma shuf1_ok js x : Forall (fun v => length v = 16) x -> length js = 16 -> shuf1 js x = mapM (get (concat x)) (rev js).
Proof.
  intros Hx HL. destruct js as [|i js]; [discriminate|]. unfold shuf1.
  destruct (sequence_shuffle 16 (i :: js)) eqn:ES.
  - change i with (hd 0 (i :: js)) at 1. apply sequence_shuffle_ok; auto; lia.
  - destruct (forallb (fun j => i / 16 =? j / 16) js) eqn:EF; cbn [negb].
    + rewrite forallb_forall in EF.
      assert (HE : forall j, In j (rev (i :: js)) -> j / 16 = i / 16).
      { intros j Hj. apply in_rev in Hj. destruct Hj as [->|Hj]; auto. specialize (EF _ Hj). apply Nat.eqb_eq in EF. auto. }
      rewrite (mapM_ext_in _ (fun j => v <- get x (i / 16);; Ok (nth (j mod 16) v 0%Z))).
      * destruct (get x (i / 16)) as [v|] eqn:E; cbn [bind].
        -- rewrite <- map_rev. unfold pick. rewrite map_map. generalize (rev (i :: js)).
           induction l as [|j l IH]; auto. rewrite mapM_cons. cbn [bind]. rewrite <- IH. reflexivity.
        -- destruct (rev (i :: js)) eqn:ER; [|reflexivity]. apply (f_equal (@length nat)) in ER. rewrite rev_length in ER. discriminate.
      * intros j Hj. rewrite (@get_reg x 16) by (auto; lia). rewrite HE by auto. auto.
    + rewrite reverse_sequence_rev, app_nil_r. auto.
Qed.
Lemma split2_length b (v : vec) : length (split2 b v) = 2 * length v.
Proof. induction v; simpl; lia. Qed.
Lemma split2_app b (u v : vec) : split2 b (u ++ v) = split2 b u ++ split2 b v.
Proof. induction u; simpl; auto. rewrite IHu. auto. Qed.
Lemma concat_split2 b x : concat (map (split2 b) x) = split2 b (concat x).
Proof. induction x as [|v x IH]; simpl; auto. rewrite IH, split2_app. auto. Qed.
Lemma get_split2 b (v : vec) : forall i,
  get (split2 b v) (i * 2) = (a <- get v i;; Ok (a mod 2 ^ b)%Z) /\ get (split2 b v) (i * 2 + 1) = (a <- get v i;; Ok (a / 2 ^ b)%Z).
Proof.
  induction v as [|a v IH]; intros i.
  - simpl. rewrite !(proj2 (get_ub _ _)); simpl; try lia. auto.
  - destruct i as [|i]; [split; reflexivity|]. destruct (IH i) as [H1 H2]. split.
    + change (S i * 2) with (S (S (i * 2))). cbn [split2]. rewrite !get_cons_S. auto.
    + change (S i * 2 + 1) with (S (S (i * 2 + 1))). cbn [split2]. rewrite !get_cons_S. auto.
Qed.
Lemma rev_repeat2 is : rev (repeat_sequence 2 is) = flat_map (fun i => [i * 2; i * 2 + 1]) (rev is).
Proof.
  induction is as [|i is IH]; auto. cbn [repeat_sequence]. rewrite rev_app_distr, IH. cbn [rev].
  rewrite flat_map_app. f_equal.
  cbn [map seq rev app flat_map]. replace (i * 2 + (2 - 1 - 1)) with (i * 2) by lia. reflexivity.
Qed.
Lemma mapM_bytes x l : rmap (join2 8) (mapM (get (split2 8 (concat x))) (flat_map (fun i => [i * 2; i * 2 + 1]) l)) = mapM (get (concat x)) l.
Proof.
  induction l as [|i l IH]; auto. cbn [flat_map app]. rewrite !mapM_cons.
  destruct (get_split2 8 (concat x) i) as [-> ->]. destruct (get (concat x) i) as [a|]; cbn [bind]; auto. rewrite <- IH.
  destruct (mapM _ (flat_map _ l)); cbn [bind rmap]; auto. cbn [join2]. do 2 f_equal.
  pose proof (Z.div_mod a (2 ^ 8)). lia.
Qed.
Lemma repeat2_length is : length (repeat_sequence 2 is) = 2 * length is.
Proof. induction is; simpl; lia. Qed.
Lemma shuf2_ok js x : Forall (fun v => length v = 8) x -> length js = 8 -> shuf2 js x = mapM (get (concat x)) (rev js).
Proof.
  intros Hx HL. unfold shuf2. rewrite !extract_ok by lia. change (skipn 0 js) with js.
  do 9 (destruct js as [|? js]; try (simpl in HL; lia)). clear HL. cbn [firstn skipn].
  destruct (forallb _ [n0; n1; n2] && forallb _ [n4; n5; n6] && negb _) eqn:EC.
  - apply andb_prop in EC. destruct EC as [EC _]. apply andb_prop in EC. destruct EC as [EA EB].
    cbn [forallb] in EA, EB. rewrite !andb_true_iff, !Nat.eqb_eq in EA, EB. destruct EA as (A1 & A2 & A3 & _). destruct EB as (B1 & B2 & B3 & _).
    cbv zeta. cbn [rev app].
    assert (Q : forall i j, i / 4 = j / 4 -> j / 8 = i / 8).
    { intros i j H. change 8 with (4 * 2). rewrite <- !Nat.div_div by lia. congruence. }
    assert (M : forall i j, i / 4 = j / 4 -> j mod 8 = 4 * ((i / 4) mod 2) + j mod 4).
    { intros i j H. change 8 with (4 * 2). rewrite Nat.mod_mul_r by lia. rewrite H. lia. }
    cbn [mapM]. rewrite !(@get_reg x 8) by (auto; lia).
    rewrite (Q n n0), (Q n n1), (Q n n2), (Q n3 n4), (Q n3 n5), (Q n3 n6) by auto.
    destruct (get x (n / 8)) as [xa|] eqn:Ea, (get x (n3 / 8)) as [xb|] eqn:Eb; cbn [bind]; auto.
    rewrite (M n n), (M n n0), (M n n1), (M n n2), (M n3 n3), (M n3 n4), (M n3 n5), (M n3 n6) by auto.
    assert (La : length xa = 8) by (apply get_ok, nth_error_In in Ea; apply (proj1 (Forall_forall _ _) Hx); auto).
    assert (Lb : length xb = 8) by (apply get_ok, nth_error_In in Eb; apply (proj1 (Forall_forall _ _) Hx); auto).
    f_equal. assert (H2 : forall k, k mod 2 = 0 \/ k mod 2 = 1) by (intros k; pose proof (Nat.mod_upper_bound k 2); lia).
    do 9 (destruct xa as [|? xa]; try (simpl in La; lia)). do 9 (destruct xb as [|? xb]; try (simpl in Lb; lia)).
    destruct (H2 (n / 4)) as [-> | ->], (H2 (n3 / 4)) as [-> | ->]; reflexivity.
  - rewrite shuf1_ok.
    + rewrite concat_split2, rev_repeat2, mapM_bytes. reflexivity.
    + apply Forall_map. eapply Forall_impl; [|exact Hx]. intros v Hv. simpl in Hv. rewrite split2_length, Hv. auto.
    + rewrite repeat2_length. reflexivity.
Qed.
Lemma shuf128_ok sz js x : sz = 1 \/ sz = 2 \/ sz = 4 \/ sz = 8 -> Forall (fun v => length v = 16 / sz) x -> length js = 16 / sz ->
  shuf128 sz js x = mapM (get (concat x)) (rev js).
Proof.
  intros Hs Hx HL. unfold shuf128. destruct (sequence_shuffle (16 / sz) js) eqn:ES.
  - apply sequence_shuffle_ok; auto. destruct Hs as [-> | [-> | [-> | ->]]]; simpl; lia.
  - destruct Hs as [-> | [-> | [-> | ->]]]; cbn [Nat.eqb]; [apply shuf1_ok|apply shuf2_ok|apply shuf4_ok|apply shuf8_ok]; auto.
Qed.
Lemma split128_len h x : Forall (fun v => length v = h + h) x -> Forall (fun v => length v = h) (split128 x).
Proof.
  induction 1 as [|v x Hv Hx IH]; simpl; constructor; [|constructor]; auto; apply (even_half v h Hv).
Qed.
Lemma shuf256_ok sz js x : sz = 1 \/ sz = 2 \/ sz = 4 \/ sz = 8 -> Forall (fun v => length v = 32 / sz) x -> length js = 32 / sz ->
  shuf256 sz js x = mapM (get (concat x)) (rev js).
Proof.
  intros Hs Hx HL. unfold shuf256. destruct (sequence_shuffle (32 / sz) js) eqn:ES.
  - apply sequence_shuffle_ok; auto. destruct Hs as [-> | [-> | [-> | ->]]]; simpl; lia.
  - assert (Eh : 32 / sz = 16 / sz + 16 / sz) by (destruct Hs as [-> | [-> | [-> | ->]]]; reflexivity).
    cbv zeta. rewrite !extract_ok by lia. change (skipn 0 js) with js.
    rewrite Eh in Hx. apply split128_len in Hx.
    rewrite !shuf128_ok by (auto; rewrite ?firstn_length, ?skipn_length; lia).
    rewrite split128_concat. rewrite (@firstn_all2 _ (16 / sz) (skipn _ js)) by (rewrite skipn_length; lia).
    replace (rev js) with (rev (firstn (16 / sz) js ++ skipn (16 / sz) js)) by (rewrite firstn_skipn; auto). rewrite rev_app_distr, mapM_app. reflexivity.
Qed.
Lemma shuf_reg_ok vs sz js x : sz = 1 \/ sz = 2 \/ sz = 4 \/ sz = 8 -> vs = 16 \/ vs = 32 ->
  Forall (fun v => length v = vs / sz) x -> length js = vs / sz -> shuf_reg vs sz js x = mapM (get (concat x)) (rev js).
Proof. intros Hs [-> | ->] Hx HL; unfold shuf_reg; cbn [Nat.eqb]; [apply shuf128_ok|apply shuf256_ok]; auto. Qed.

(** *** The driver *)
(** The indices the driver reads: Is, then last+1, last+2, ... up to a whole number of registers. *)
Definition padded (e : nat) (is : list nat) : list nat :=
  if length is mod e =? 0 then is else is ++ map (fun k => last is 0 + 1 + k) (seq 0 (e - length is mod e)).
Lemma padded_app e i1 i2 : 0 < e -> length i1 = e -> i2 <> [] -> padded e (i1 ++ i2) = i1 ++ padded e i2.
Proof.
  intros He H1 H2. unfold padded. rewrite app_length, H1.
  replace ((e + length i2) mod e) with (length i2 mod e).
  2:{ replace (e + length i2) with (length i2 + 1 * e) by lia. rewrite Nat.mod_add; lia. }
  destruct (_ =? 0); auto. rewrite <- app_assoc. f_equal. f_equal. apply map_ext. intros k. do 2 f_equal.
  destruct (exists_last H2) as (l & z & ->). rewrite app_assoc, !last_last. auto.
Qed.
Lemma mapM_length {A B} (f : A -> res B) l r : mapM f l = Ok r -> length r = length l.
Proof. intros H. apply mapM_ok_iff in H. tauto. Qed.
Lemma set_split {A} (l : list A) i v : i < length l -> set l i v = Ok (firstn i l ++ v :: skipn (S i) l).
Proof.
  revert i; induction l as [|x l IH]; intros [|i] H; simpl in *; try lia; auto. rewrite IH by lia. auto.
Qed.
Lemma concat_firstn {A} e (x : list (list A)) : Forall (fun v => length v = e) x -> forall i, concat (firstn i x) = firstn (i * e) (concat x).
Proof.
  induction 1 as [|v x Hv Hx IH]; intros [|i]; auto.
  - simpl. rewrite firstn_nil. auto.
  - cbn [firstn concat]. rewrite IH. replace (S i * e) with (length v + i * e) by lia. rewrite firstn_app_2. auto.
Qed.
Lemma concat_skipn {A} e (x : list (list A)) : Forall (fun v => length v = e) x -> forall i, concat (skipn i x) = skipn (i * e) (concat x).
Proof.
  induction 1 as [|v x Hv Hx IH]; intros [|i]; auto.
  - simpl. rewrite skipn_nil. auto.
  - cbn [skipn concat]. rewrite IH. replace (S i * e) with (length v + i * e) by lia. rewrite skipn_app.
    rewrite (@skipn_all2 _ (length v + i * e) v) by apply Nat.le_add_r. simpl. replace (length v + i * e - length v) with (i * e) by lia. auto.
Qed.
Lemma skipn_skipn' {A} a b (l : list A) : skipn a (skipn b l) = skipn (b + a) l.
Proof. revert l; induction b as [|b IH]; intros l; auto. destruct l; [rewrite !skipn_nil; auto|]. simpl. apply IH. Qed.
Lemma Forall_firstn' {A} (P : A -> Prop) n l : Forall P l -> Forall P (firstn n l).
Proof. intros H. rewrite <- (firstn_skipn n l) in H. apply Forall_app in H. tauto. Qed.
Lemma Forall_skipn' {A} (P : A -> Prop) n l : Forall P l -> Forall P (skipn n l).
Proof. intros H. rewrite <- (firstn_skipn n l) in H. apply Forall_app in H. tauto. Qed.
Lemma place2 {A} (a l1 l2 s : list A) n : n = length a + length l1 ->
  firstn n (a ++ l1 ++ s) ++ l2 ++ skipn (n + length l2) (a ++ l1 ++ s) = a ++ (l1 ++ l2) ++ skipn (length l2) s.
Proof.
  intros ->. rewrite (app_assoc a l1 s). rewrite <- (app_length a l1). rewrite firstn_app, firstn_all, Nat.sub_diag. cbn [firstn]. rewrite app_nil_r.
  rewrite skipn_app, (@skipn_all2 _ _ (a ++ l1)) by lia. replace (length (a ++ l1) + length l2 - length (a ++ l1)) with (length l2) by lia.
  rewrite <- !app_assoc. auto.
Qed.
Section Drv.
Context (vs sz : nat) (src : list vec).
Let e := vs / sz.
Context (Hs : sz = 1 \/ sz = 2 \/ sz = 4 \/ sz = 8) (Hv : vs = 16 \/ vs = 32) (Hsrc : Forall (fun v => length v = e) src).
Lemma e_pos' : 0 < e.
Proof. unfold e. destruct Hs as [-> | [-> | [-> | ->]]], Hv as [-> | ->]; simpl; lia. Qed.
Definition placed (dst r : list vec) (off : nat) (l : list Z) : Prop :=
  length r = length dst /\ Forall (fun v => length v = e) r /\
  concat r = firstn (off * e) (concat dst) ++ l ++ skipn (off * e + length l) (concat dst).
Lemma shuf_drv_ok n : forall is dst off fuel, length is <= n -> 0 < length is -> length is + 2 <= fuel ->
  Forall (fun v => length v = e) dst -> off * e + length is <= length dst * e ->
  match mapM (get (concat src)) (padded e is) with
  | Ok l => exists r, shuf_drv fuel vs sz is dst off src = Ok r /\ placed dst r off l
  | UB => shuf_drv fuel vs sz is dst off src = UB
  end.
Proof.
  pose proof e_pos' as He. 
  (* one register *)
  assert (Hreg : forall is dst off fuel, length is = e -> 0 < fuel -> Forall (fun v => length v = e) dst -> off < length dst ->
    match mapM (get (concat src)) is with
    | Ok l => exists r, shuf_drv fuel vs sz is dst off src = Ok r /\ placed dst r off l
    | UB => shuf_drv fuel vs sz is dst off src = UB
    end).
  { intros is dst off fuel HL Hf Hd Ho. destruct fuel as [|fuel]; [lia|]. cbn [shuf_drv]. fold e. rewrite HL, Nat.eqb_refl.
    rewrite reverse_sequence_rev, app_nil_r. rewrite shuf_reg_ok by (auto; rewrite rev_length; auto). rewrite rev_involutive.
    destruct (mapM (get (concat src)) is) as [l|] eqn:E; cbn [bind]; auto.
    pose proof (mapM_length _ _ E) as Ll. rewrite set_split by auto. eexists; split; [reflexivity|]. split; [|split].
    - rewrite app_length, firstn_length. cbn [length]. rewrite skipn_length. lia.
    - apply Forall_app. split; [apply Forall_firstn'; auto|]. constructor; [congruence|]. apply Forall_skipn'; auto.
    - rewrite concat_app. cbn [concat]. rewrite (concat_firstn Hd), (concat_skipn Hd). do 3 f_equal. lia. }
  induction n as [|n IH]; intros is dst off fuel Hn H0 Hf Hd Ho; [lia|].
  destruct (Nat.lt_trichotomy (length is) e) as [Hlt|[Heq|Hgt]].
  - (* pad *)
    destruct fuel as [|fuel]; [lia|]. cbn [shuf_drv]. fold e. replace (length is =? e) with false by lia. replace (e <? length is) with false by lia.
    assert (Ep : padded e is = pad_sequence e is).
    { unfold padded, pad_sequence. rewrite Nat.mod_small by lia. replace (length is =? 0) with false by lia. auto. }
    rewrite Ep. apply Hreg; auto; [|lia|nia]. unfold pad_sequence. rewrite app_length, map_length, seq_length. lia.
  - replace (padded e is) with is by (unfold padded; rewrite Heq, Nat.mod_same, Nat.eqb_refl by lia; auto). apply Hreg; auto; [lia|nia].
  - destruct fuel as [|fuel]; [lia|]. cbn [shuf_drv]. fold e. replace (length is =? e) with false by lia. replace (e <? length is) with true by lia.
    rewrite !extract_ok by lia. change (skipn 0 is) with is.
    rewrite (@firstn_all2 _ (length is - e) (skipn e is)) by (rewrite skipn_length; lia).
    set (i1 := firstn e is). set (i2 := skipn e is).
    assert (L1 : length i1 = e) by (unfold i1; rewrite firstn_length; lia).
    assert (L2 : length i2 = length is - e) by (unfold i2; rewrite skipn_length; lia).
    assert (Eis : is = i1 ++ i2) by (unfold i1, i2; rewrite firstn_skipn; auto).
    replace (padded e is) with (padded e (i1 ++ i2)) by (rewrite <- Eis; auto).
    rewrite padded_app by (auto; intros E; rewrite E in L2; simpl in L2; lia). rewrite mapM_app.
    pose proof (Hreg i1 dst off fuel L1 ltac:(lia) Hd ltac:(nia)) as R1.
    destruct (mapM (get (concat src)) i1) as [l1|] eqn:E1; cbn [bind].
    + destruct R1 as (d & Ed & Ld & Fd & Cd). rewrite Ed. cbn [bind].
      pose proof (IH i2 d (off + 1) fuel ltac:(lia) ltac:(lia) ltac:(lia) Fd ltac:(nia)) as R2.
      destruct (mapM (get (concat src)) (padded e i2)) as [l2|] eqn:E2; cbn [bind]; auto.
      destruct R2 as (r & Er & Lr & Fr & Cr). exists r. split; auto. split; [congruence|]. split; auto.
      pose proof (mapM_length _ _ E1) as M1. rewrite Cr, Cd.
      assert (Lc : length (concat dst) = length dst * e) by (apply concat_length; auto).
      assert (Lf : length (firstn (off * e) (concat dst)) = off * e) by (rewrite firstn_length; nia).
      rewrite (@place2 _ (firstn (off * e) (concat dst)) l1 l2 _ ((off + 1) * e)) by nia. rewrite skipn_skipn', app_length. do 3 f_equal. lia.
    + rewrite R1. auto.
Qed.
End Drv.


(** *** Storage of one type seen with another register width *)
Lemma split128_length x : length (split128 x) = 2 * length x.
Proof. induction x; simpl; auto. lia. Qed.
Lemma join128_ok h n : forall x, length x = 2 * n -> Forall (fun v => length v = h) x ->
  length (join128 x) = n /\ Forall (fun v => length v = h + h) (join128 x) /\ concat (join128 x) = concat x.
Proof.
  induction n as [|n IH]; intros [|a [|b x]] HL HF; simpl in HL; try lia; [simpl; auto|].
  inversion HF as [|? ? Ha HF']; inversion HF' as [|? ? Hb HF'']; subst. destruct (IH x ltac:(lia) HF'') as (L & F & C).
  cbn [join128 length concat]. split; [lia|]. split; [constructor; auto; rewrite app_length; lia|]. rewrite C, <- app_assoc. auto.
Qed.
Lemma words_concat w x : words w (concat x) -> Forall (words w) x.
Proof. induction x as [|v x IH]; simpl; intros H; constructor; apply words_app in H; [tauto|]. apply IH; tauto. Qed.
Lemma concat_zeros X : concat (zeros X) = repeat 0%Z (dsz X * ext X).
Proof.
  unfold zeros, zerov. induction (dsz X); simpl; auto. rewrite IHn, repeat_app. auto.
Qed.
Lemma words_zeros X n k : words (xw X) (skipn n (repeat 0%Z k)).
Proof.
  apply Forall_skipn'. apply Forall_forall. intros v Hin. apply repeat_spec in Hin. rewrite Hin.
  split; [lia|]. apply pow2_pos. unfold xw, ew. lia.
Qed.
Section Main.
Context (X Y : xty) (HX : xty_ok X) (HY : xty_ok Y) (HT : xT Y = xT X).
Let sz := esz (xT X).
Let vs := Nat.min (xvs X) (xvs Y).
(** elements per register of the narrower of the two register widths *)
Definition shuf_e : nat := Nat.min (xvs X) (xvs Y) / esz (xT X).
Lemma sz_cases : sz = 1 \/ sz = 2 \/ sz = 4 \/ sz = 8.
Proof. apply esz_cases. apply HX. Qed.
Lemma vs_cases : (vs = xvs X \/ (vs = 16 /\ xvs X = 32)) /\ (vs = xvs Y \/ (vs = 16 /\ xvs Y = 32)) /\ (vs = 16 \/ vs = 32).
Proof. unfold vs. destruct HX as (_ & _ & _ & [E | [E _]]), HY as (_ & _ & _ & [E' | [E' _]]); rewrite E, E'; simpl; auto. Qed.
Lemma x_shuffle_main is x : shaped X x -> xN Y = length is ->
  match mapM (get (concat x)) (padded shuf_e is) with
  | Ok l => exists r, x_shuffle X Y is x = Ok r /\ shaped Y r /\ concat r = l ++ skipn (length l) (repeat 0%Z (dsz Y * ext Y))
  | UB => x_shuffle X Y is x = UB
  end.
Proof.
  intros Hx HN. pose proof sz_cases as Hs. destruct vs_cases as (VX & VY & Hv).
  assert (E16 : 32 / sz = 16 / sz + 16 / sz) by (destruct Hs as [-> | [-> | [-> | ->]]]; auto).
  assert (Ex : ext X = xvs X / sz) by reflexivity.
  assert (Ey : ext Y = xvs Y / sz) by (unfold ext; rewrite HT; auto).
  unfold x_shuffle, shuf_e. fold vs sz. clearbody vs sz.
  set (src := if vs <? xvs X then split128 x else x).
  assert (Cs : concat src = concat x) by (unfold src; destruct (_ <? _); auto using split128_concat).
  assert (Fs : Forall (fun v => length v = vs / sz) src).
  { pose proof (shaped_len Hx) as FX. rewrite Ex in FX. unfold src. destruct VX as [VX | [VX VX']].
    - rewrite <- VX in *. rewrite Nat.ltb_irrefl. auto.
    - rewrite VX, VX' in *. cbn [Nat.ltb Nat.leb]. apply split128_len. rewrite <- E16. auto. }
  assert (Hzl : Forall (fun v => length v = ext Y) (zeros Y)).
  { unfold zeros, zerov, setzero. apply Forall_forall. intros v Hin. apply repeat_spec in Hin. subst. apply repeat_length. }
  assert (Lz : length (zeros Y) = dsz Y) by (unfold zeros; apply repeat_length).
  set (dst := if vs <? xvs Y then split128 (zeros Y) else zeros Y).
  assert (Cd : concat dst = repeat 0%Z (dsz Y * ext Y)).
  { unfold dst; destruct (vs <? xvs Y); rewrite ?split128_concat; apply concat_zeros. }
  assert (Fd : Forall (fun v => length v = vs / sz) dst).
  { unfold dst. rewrite Ey in Hzl. destruct VY as [VX' | [VX' VX'']].
    - rewrite VX', Nat.ltb_irrefl. auto.
    - rewrite VX', VX'' in *. cbn [Nat.ltb Nat.leb]. apply split128_len. rewrite <- E16. auto. }
  assert (Ld : length dst * (vs / sz) = dsz Y * ext Y).
  { rewrite <- (concat_length Fd), Cd, repeat_length. auto. }
  pose proof (dsz_spec HY) as (_ & D2 & D3).
  assert (D0 : 0 < xN Y) by (destruct HY as (_ & _ & ? & _); lia).
  assert (P1 : 0 < length is) by (clear -D0 HN; lia).
  assert (P2 : 0 * (vs / sz) + length is <= length dst * (vs / sz)) by (rewrite Ld; clear -D2 HN; lia).
  pose proof (@shuf_drv_ok vs sz src Hs Hv Fs (length is) is dst 0 (length is + 2) (le_n _) P1 (le_n _) Fd P2) as R.
  rewrite <- Cs.
  assert (Lp : forall l, mapM (get (concat src)) (padded (vs / sz) is) = Ok l -> words (xw X) l).
  { intros l El. apply mapM_ok_iff in El. destruct El as [L El]. apply Forall_forall. intros v Hin. apply In_nth_error in Hin. destruct Hin as [k Hk].
    apply get_ok in Hk. destruct (get_lt_ok (padded (vs / sz) is) k) as [i Hi]; [rewrite <- L; eapply get_ok_lt; eauto|].
    pose proof (El _ _ Hi) as Gi. rewrite Hk, Cs in Gi. destruct (concat_shaped Hx) as [_ W]. apply get_ok in Gi. eapply Forall_forall; [exact W|].
    eapply nth_error_In; eauto. }
  destruct (mapM (get (concat src)) (padded (vs / sz) is)) as [l|] eqn:El.
  - destruct R as (r & Er & Lr & Fr & Cr). specialize (Lp l eq_refl). rewrite Nat.mul_0_l, Nat.add_0_l in Cr. change (firstn 0 (concat dst)) with (@nil Z) in Cr. rewrite app_nil_l in Cr. rewrite Cd in Cr.
    assert (Wr : words (xw Y) (concat r)).
    { rewrite Cr. apply words_app. split; [replace (xw Y) with (xw X) by (unfold xw; rewrite HT; reflexivity); exact Lp|apply words_zeros]. }
    unfold dst in *. destruct (vs <? xvs Y) eqn:Ev.
    + apply Nat.ltb_lt in Ev. destruct VY as [VY | [VY VY']]; [exfalso; clear -Ev VY; lia|]. rewrite Er. cbn [rmap bind]. rewrite split128_length, Lz in Lr.
      destruct (@join128_ok (vs / sz) (dsz Y) r Lr Fr) as (J1 & J2 & J3). rewrite <- J3 in Wr. exists (join128 r). split; auto. split; [|congruence].
      split; auto. apply words_concat in Wr. apply Forall_forall. intros v Hin. split; [|exact (proj1 (Forall_forall _ _) Wr v Hin)].
      rewrite Ey, VY', E16. rewrite VY in J2. exact (proj1 (Forall_forall _ _) J2 v Hin).
    + apply Nat.ltb_ge in Ev. destruct VY as [VY | [VY VY']]; [|exfalso; clear -Ev VY VY'; lia]. rewrite Er. exists r. split; auto. split; [|congruence].
      split; [congruence|]. apply words_concat in Wr. apply Forall_forall. intros v Hin. split; [|exact (proj1 (Forall_forall _ _) Wr v Hin)].
      rewrite Ey, <- VY. exact (proj1 (Forall_forall _ _) Fr v Hin).
  - unfold dst in R. destruct (vs <? xvs Y); rewrite R; auto.
Qed.
End Main.
