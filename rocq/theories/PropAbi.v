(** C24: ABI deduction. *)
From Coq Require Import ZArith List Bool Lia Permutation.
From Verif Require Import Abi.
Import ListNotations.
Local Open Scope Z_scope.

(** Types the x86 backend vectorises have 1, 2, 4 or 8 bytes. *)
Definition elem_ok (T : ctype) : Prop := In (tsize T) [1; 2; 4; 8].
(** Vector sizes for which a simd object exists at all. *)
Definition n_ok (T : ctype) (n : Z) : Prop := 1 <= n /\ n * tsize T <= SIZE_MAX.
(** Widest native vector of the build, in bytes. *)
Definition reg_bytes (b : build) : Z := if b_avx b then 32 else 16.

Ltac sz H := destruct H as [H | [H | [H | [H | []]]]].
Ltac unf := unfold x86_overload_any, x86_overload_128, x86_overload_256, overload_simd, overload_default, SIZE_MAX in *.
Ltac bools := repeat match goal with
  | |- context [Z.ltb ?a ?b] => destruct (Z.ltb_spec a b)
  | |- context [Z.leb ?a ?b] => destruct (Z.leb_spec a b)
  | |- context [Z.eqb ?a ?b] => destruct (Z.eqb_spec a b)
  end; cbn [andb orb negb].

Lemma max_div : forall T n, elem_ok T -> n * tsize T <= SIZE_MAX -> n <= SIZE_MAX / tsize T.
Proof. intros T n H L. apply Z.div_le_lower_bound; [sz H; lia|]. lia. Qed.

(** ** Which backend a tag selects: total, unambiguous, exactly characterised *)
Theorem C24_storage_characterised : forall b T n a,
  elem_ok T -> n_ok T n -> 0 <= a ->
  storage_of b T n a = Some (
    if vectorizable b T && (2 <=? n) && ((a =? 0) || (16 <=? a)) && (a <? SIZE_MAX) then
      Native (if b_avx b && (if a =? 0 then 16 <? n * tsize T else 32 <=? a) then 32 else 16)
    else Array).
Proof.
  intros b T n a HT [Hn Hm] Ha. pose proof (max_div T n HT Hm) as Hd.
  unfold storage_of. unf.
  assert (Hq : tsize T / tsize T = 1) by (apply Z.div_same; sz HT; lia). rewrite Hq.
  destruct (vectorizable b T); cbn [andb]; [|destruct (b_avx b); reflexivity].
  assert (H16 : 16 / tsize T < n <-> 16 < n * tsize T) by (sz HT; rewrite <- HT; Z.div_mod_to_equations; lia).
  assert (H2 : 2 <= 16 / tsize T) by (sz HT; rewrite <- HT; discriminate).
  destruct (b_avx b); cbn [andb]; bools; try reflexivity; lia.
Qed.
Print Assumptions C24_storage_characterised.

(** no tag is ambiguous between the 16- and the 32-byte implementation *)
Theorem C24_never_ambiguous : forall b T n a, elem_ok T ->
  ~ (x86_overload_128 b T n a = true /\ x86_overload_256 b T n a = true).
Proof.
  intros b T n a HT. unf.
  assert (Hq : tsize T / tsize T = 1) by (apply Z.div_same; sz HT; lia). rewrite Hq.
  destruct (b_avx b); cbn [andb]; [|intros []; discriminate].
  destruct (vectorizable b T); cbn [andb orb]; [|intros []; discriminate].
  bools; intros []; try discriminate; lia.
Qed.
Print Assumptions C24_never_ambiguous.

(** the native storage is never narrower than the N elements, wastes less than one native vector, and the object is
    aligned for its native vectors and at least as aligned as requested *)
Theorem C24_storage_holds_n : forall b T n a w,
  elem_ok T -> n_ok T n -> 0 <= a -> storage_of b T n a = Some (Native w) ->
  (w = 16 \/ (w = 32 /\ b_avx b = true)) /\
  exists k, native_data_size b T n a = Some k /\
    n * tsize T <= k * w < n * tsize T + w /\
    exists al, simd_alignment b T n a (tsize T) = Some al /\ w <= al /\ a <= al.
Proof.
  intros b T n a w HT Hn Ha HS. split.
  - rewrite C24_storage_characterised in HS by assumption.
    destruct (_ && _ && _ && _); [|discriminate]. injection HS as <-.
    destruct (b_avx b); cbn [andb]; [|now left]. destruct (if a =? 0 then _ else _); auto.
  - unfold native_data_size, simd_alignment. rewrite HS. exists (align_data T n w). split; [reflexivity|].
    assert (w = 16 \/ w = 32) as Hw.
    { rewrite C24_storage_characterised in HS by assumption.
      destruct (_ && _ && _ && _); [|discriminate]. injection HS as <-. destruct (_ && _); auto. }
    split.
    + unfold align_data. destruct Hn as [Hn _].
      assert (exists e, 0 < e /\ w / tsize T = e /\ w = e * tsize T) as (e & He & -> & Hwe).
      { exists (w / tsize T). destruct Hw as [-> | ->]; sz HT; rewrite <- HT; Z.div_mod_to_equations; lia. }
      pose proof (Z.div_mod n e ltac:(lia)). pose proof (Z.mod_pos_bound n e He).
      assert (0 < tsize T) by (sz HT; lia).
      destruct (Z.eqb_spec (n mod e) 0); rewrite Hwe; nia.
    + exists (Z.max a w). split; [reflexivity|]. lia.
Qed.
Print Assumptions C24_storage_holds_n.

(** ** deduce_t *)
(** Without hints: scalar exactly for N = 1, otherwise a tag of size exactly N, whose alignment is that of the
    native vectors used (0 for types that cannot be vectorised). *)
Theorem C24_deduce : forall b T n, elem_ok T -> n_ok T n ->
  deduce b T n [] = Some (
    if n =? 1 then scalar
    else avec n (if vectorizable b T then (if b_avx b && (16 <? n * tsize T) then 32 else 16) else 0)).
Proof.
  intros b T n HT Hn. cbn [deduce]. pose proof (C24_storage_characterised b T n 0 HT Hn ltac:(lia)) as HS.
  unfold storage_of in HS. unfold deduce0, fixed_size. destruct Hn as [Hn _].
  cbn [Z.eqb orb] in HS. replace (0 <? SIZE_MAX) with true in HS by reflexivity.
  rewrite !andb_true_r in HS.
  destruct (x86_overload_128 b T n 0), (x86_overload_256 b T n 0); try discriminate;
    destruct (vectorizable b T); cbn [andb] in HS; destruct (Z.eqb_spec n 1); destruct (Z.leb_spec 2 n); try lia;
    destruct (b_avx b && (16 <? n * tsize T)); try discriminate; reflexivity.
Qed.
Print Assumptions C24_deduce.

(** The deduced tag selects the same storage as fixed_size<N> would: deduction never loses vectorisation and never
    picks a narrower vector. *)
Theorem C24_deduce_same_storage : forall b T n n' a, elem_ok T -> n_ok T n -> 
  deduce b T n [] = Some (avec n' a) -> n' = n /\ storage_of b T n a = storage_of b T n 0.
Proof.
  intros b T n n' a HT Hn HD. rewrite C24_deduce in HD by assumption.
  destruct (Z.eqb_spec n 1) as [|Hne]; [discriminate|]. injection HD as <- Ha. split; [reflexivity|].
  assert (0 <= a) by (subst a; destruct (vectorizable b T); [destruct (_ && _)|]; lia).
  rewrite !C24_storage_characterised by (assumption || lia).
  destruct (vectorizable b T); cbn [andb]; [|reflexivity].
  destruct (b_avx b && (16 <? n * tsize T)) eqn:E; subst a; cbn [Z.eqb orb Z.leb Z.compare Pos.compare Pos.compare_cont];
    replace (32 <? SIZE_MAX) with true by reflexivity; replace (16 <? SIZE_MAX) with true by reflexivity;
    replace (0 <? SIZE_MAX) with true by reflexivity; rewrite ?andb_true_r, ?E;
    destruct (2 <=? n); try reflexivity; destruct (b_avx b); cbn [andb] in *; try reflexivity; try discriminate;
    now rewrite E.
Qed.
Print Assumptions C24_deduce_same_storage.

(** With any hints the result has exactly N elements (rebind_simd / resize_simd are instances). *)
Theorem C24_deduce_size : forall b T n hints, elem_ok T -> n_ok T n ->
  exists t, deduce b T n hints = Some t /\ tag_size t = n.
Proof.
  intros b T n hints HT Hn. induction hints as [|h r IH].
  - rewrite C24_deduce by assumption. eexists. split; [reflexivity|].
    destruct (Z.eqb_spec n 1); [now subst|reflexivity].
  - destruct h as [|m a]; [|destruct r as [|h' r']].
    + cbn [deduce tag_size]. destruct (Z.eqb_spec 1 n); [|exact IH]. exists scalar. split; [reflexivity|assumption].
    + exists (avec n a). split; reflexivity.
    + change (deduce b T n (avec m a :: h' :: r')) with
        (if tag_size (avec m a) =? n then Some (avec m a) else deduce b T n (h' :: r')).
      destruct (Z.eqb_spec (tag_size (avec m a)) n); [|exact IH]. exists (avec m a). split; [reflexivity|assumption].
Qed.
Print Assumptions C24_deduce_size.

(** A hint that already has the requested size is kept: the first such hint wins. *)
Theorem C24_hint_kept : forall b T n pre h post, elem_ok T -> n_ok T n ->
  (forall x, In x pre -> tag_size x <> n) -> tag_size h = n -> deduce b T n (pre ++ h :: post) = Some h.
Proof.
  intros b T n pre h post HT Hn Hpre Hh. induction pre as [|x pre IH].
  - cbn [app]. destruct h as [|m a]; [|destruct post as [|p q]].
    + cbn [deduce]. destruct (Z.eqb_spec (tag_size scalar) n); [reflexivity|contradiction].
    + cbn in Hh |- *. now subst.
    + change (deduce b T n (avec m a :: p :: q)) with (if tag_size (avec m a) =? n then Some (avec m a) else deduce b T n (p :: q)).
      destruct (Z.eqb_spec (tag_size (avec m a)) n); [reflexivity|contradiction].
  - assert (deduce b T n ((x :: pre) ++ h :: post) = (if tag_size x =? n then Some x else deduce b T n (pre ++ h :: post))) as ->.
    { cbn [app]. destruct x as [|m a]; [reflexivity|]. destruct (pre ++ h :: post) eqn:E; [|reflexivity].
      destruct pre; discriminate. }
    destruct (Z.eqb_spec (tag_size x) n) as [C|C]; [exfalso; apply (Hpre x); [now left|exact C]|].
    apply IH. intros y Hy. apply Hpre. now right.
Qed.
Print Assumptions C24_hint_kept.

(** rebind_simd keeps the element count and resize_simd changes it to exactly N, whatever the tag; a vector tag keeps
    its alignment, and rebinding scalar gives scalar. *)
Theorem C24_rebind_resize : forall b T n t, elem_ok T -> n_ok T n -> n_ok T (tag_size t) ->
  (exists t', rebind_tag b T t = Some t' /\ tag_size t' = tag_size t) /\
  (exists t', resize_tag b T n t = Some t' /\ tag_size t' = n /\
     (forall m a m' a', t = avec m a -> t' = avec m' a' -> a' = a)) /\
  rebind_tag b T scalar = Some scalar.
Proof.
  intros b T n t HT Hn Ht. split; [now apply C24_deduce_size|]. split; [|reflexivity].
  destruct (C24_deduce_size b T n [t] HT Hn) as (t' & H & Hs). exists t'. split; [exact H|]. split; [exact Hs|].
  intros m a m' a' -> ->. cbn in H. now injection H.
Qed.
Print Assumptions C24_rebind_resize.

(** ** native / compatible *)
(** They fill exactly one native register: no padding, and the tag really selects that register. *)
Theorem C24_native_compatible : forall b T, elem_ok T -> vectorizable b T = true ->
  exists n m, native b T = Some (avec n (reg_bytes b)) /\ n * tsize T = reg_bytes b /\
    storage_of b T n (reg_bytes b) = Some (Native (reg_bytes b)) /\ native_data_size b T n (reg_bytes b) = Some 1 /\
    compatible b T = Some (avec m 16) /\ m * tsize T = 16 /\
    storage_of b T m 16 = Some (Native 16) /\ native_data_size b T m 16 = Some 1.
Proof.
  intros b T HT HV. unfold native, compatible, select_abi, reg_bytes. rewrite HV.
  exists ((if b_avx b then 32 else 16) / tsize T), (16 / tsize T).
  assert (Hd : forall w, (w = 16 \/ w = 32) -> w / tsize T * tsize T = w /\ 2 <= w / tsize T).
  { intros w [-> | ->]; sz HT; rewrite <- HT; Z.div_mod_to_equations; lia. }
  assert (Hn : forall w, (w = 16 \/ w = 32) -> n_ok T (w / tsize T)).
  { intros w Hw. destruct (Hd w Hw). unfold n_ok, SIZE_MAX. lia. }
  assert (HA : forall w, (w = 16 \/ w = 32) -> align_data T (w / tsize T) w = 1).
  { intros w Hw. unfold align_data. destruct (Hd w Hw). rewrite Z.div_same, Z.mod_same by lia. reflexivity. }
  assert (HS : forall w, (w = 16 \/ w = 32 /\ b_avx b = true) -> storage_of b T (w / tsize T) w = Some (Native w)).
  { intros w Hw. assert (w = 16 \/ w = 32) as Hw' by tauto. destruct (Hd w Hw').
    rewrite C24_storage_characterised by (auto; lia). rewrite HV. destruct (Z.leb_spec 2 (w / tsize T)); [|lia].
    destruct Hw as [-> | [-> ->]]; cbn [Z.eqb orb andb Z.leb Z.compare Pos.compare Pos.compare_cont];
      [replace (16 <? SIZE_MAX) with true by reflexivity; now rewrite andb_false_r|reflexivity]. }
  unfold native_data_size.
  destruct (b_avx b) eqn:E; rewrite !HS by auto;
    repeat split; rewrite ?HA by auto; try reflexivity; apply Hd; auto.
Qed.
Print Assumptions C24_native_compatible.

(** ** common *)
(** reference: component-wise maximum of the vector tags, scalar if there is none *)
Definition le_tag (s t : tag) : Prop :=
  match s, t with
  | scalar, _ => True
  | avec n a, avec n' a' => n <= n' /\ a <= a'
  | avec _ _, scalar => False
  end.
Definition wf_tag (t : tag) : Prop := match t with scalar => True | avec n a => 0 <= n /\ 0 <= a end.

Lemma fold_max : forall l x y, fold_left Z.max l (Z.max x y) = Z.max x (fold_left Z.max l y).
Proof. induction l as [|z l IH]; intros x y; [reflexivity|]. cbn. rewrite <- Z.max_assoc. apply IH. Qed.

Definition join (s t : tag) : tag :=
  match s, t with
  | scalar, t => t
  | s, scalar => s
  | avec n a, avec n' a' => avec (Z.max n n') (Z.max a a')
  end.
Lemma common_impl_spec : forall l seq, common_impl seq l =
  fold_left join l (common_impl seq []).
Proof.
  induction l as [|t l IH]; intros seq; [reflexivity|]. destruct t as [|n a].
  - change (common_impl seq (scalar :: l)) with (common_impl seq l). rewrite IH. cbn [fold_left]. f_equal.
    destruct (common_impl seq []); reflexivity.
  - change (common_impl seq (avec n a :: l)) with (common_impl ((n, a) :: seq) l). rewrite IH. cbn [fold_left]. f_equal.
    destruct seq as [|[n' a'] r]; [reflexivity|]. cbn [common_impl join map fst snd fold_left].
    rewrite !fold_max. f_equal; apply Z.max_comm.
Qed.
Lemma common_spec : forall l, common l = fold_left join l scalar.
Proof. intros l. unfold common. now rewrite common_impl_spec. Qed.
Lemma join_comm : forall s t, join s t = join t s.
Proof. intros [|] [|]; cbn; try reflexivity. now rewrite (Z.max_comm n), (Z.max_comm a). Qed.
Lemma join_assoc : forall s t u, join s (join t u) = join (join s t) u.
Proof. intros [|] [|] [|]; cbn; try reflexivity. now rewrite !Z.max_assoc. Qed.
Lemma fold_join : forall l s t, fold_left join l (join s t) = join s (fold_left join l t).
Proof. induction l as [|u l IH]; intros s t; [reflexivity|]. cbn. rewrite <- join_assoc. apply IH. Qed.
Lemma common_cons : forall t l, common (t :: l) = join t (common l).
Proof.
  intros. rewrite !common_spec. cbn [fold_left]. rewrite (join_comm scalar t). apply fold_join.
Qed.

(** order and grouping of the tags do not matter *)
Theorem C24_common_permutation : forall l l', Permutation l l' -> common l = common l'.
Proof.
  induction 1.
  - reflexivity.
  - now rewrite !common_cons, IHPermutation.
  - rewrite !common_cons, !join_assoc. f_equal. apply join_comm.
  - congruence.
Qed.
Print Assumptions C24_common_permutation.
Theorem C24_common_assoc : forall l1 l2, common (common l1 :: l2) = common (l1 ++ l2).
Proof.
  intros l1 l2. rewrite common_cons. induction l1 as [|t l1 IH]; cbn [app].
  - reflexivity.
  - rewrite !common_cons, <- IH. now rewrite join_assoc.
Qed.
Print Assumptions C24_common_assoc.

(** it is the least upper bound in size and alignment *)
Theorem C24_common_lub : forall l, 
  (forall t, In t l -> le_tag t (common l)) /\
  (forall u, (forall t, In t l -> le_tag t u) -> le_tag (common l) u).
Proof.
  induction l as [|t l [IH1 IH2]]; [split; [intros t []|intros; exact I]|]. rewrite common_cons. split.
  - intros s [<- | Hs].
    + destruct t as [|n a], (common l) as [|n' a']; cbn; try exact I; lia.
    + specialize (IH1 s Hs). destruct s as [|ns as_]; [exact I|].
      destruct t as [|n a], (common l) as [|n' a']; cbn in *; try contradiction; lia.
  - intros u Hu. pose proof (Hu t (or_introl eq_refl)) as Ht.
    assert (le_tag (common l) u) as Hl by (apply IH2; intros s Hs; apply Hu; now right).
    destruct t as [|n a], (common l) as [|n' a'], u as [|n'' a'']; cbn in *; try exact I; try contradiction; lia.
Qed.
Print Assumptions C24_common_lub.

(** common of identical tags is that tag, and its size and alignment are those of some of the given tags *)
Theorem C24_common_attained : forall l n a, common l = avec n a ->
  (exists a', In (avec n a') l) /\ (exists n', In (avec n' a) l).
Proof.
  induction l as [|t l IH]; intros n a H; [discriminate|]. rewrite common_cons in H.
  destruct t as [|n1 a1]; [cbn in H; destruct (IH n a H) as [[x ?] [y ?]]; split; eexists; right; eassumption|].
  destruct (common l) as [|n2 a2] eqn:E; cbn in H; injection H as <- <-.
  - split; eexists; left; reflexivity.
  - destruct (IH n2 a2 eq_refl) as [[x Hx] [y Hy]]. split.
    + destruct (Z.max_spec n1 n2) as [[_ ->] | [_ ->]]; eexists; [right; eassumption|left; reflexivity].
    + destruct (Z.max_spec a1 a2) as [[_ ->] | [_ ->]]; eexists; [right; eassumption|left; reflexivity].
Qed.
Print Assumptions C24_common_attained.

Example C24_case : let b := {| b_sse2 := true; b_avx := true |} in let f32 := {| tsize := 4; arith := true; is_float := true |} in
  elem_ok f32 /\ n_ok f32 5 /\ deduce b f32 5 [] = Some (avec 5 32) /\ deduce b f32 4 [] = Some (avec 4 16) /\
  native b f32 = Some (avec 8 32) /\ storage_of b f32 5 0 = Some (Native 32) /\ native_data_size b f32 9 0 = Some 2 /\
  common [avec 4 16; scalar; avec 3 32] = avec 4 32.
Proof. cbn; unfold elem_ok, n_ok, SIZE_MAX; cbn; repeat split; auto; try lia. Qed.
