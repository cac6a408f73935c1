(** Properties of the x86 backend (C13-C18, C21-C23, C25, C45).

    [X] ranges over every instruction-set configuration, element type, native width and N ([xty_ok]); a vector is the
    list of its native registers ([shaped]: the right number of registers and lanes, every lane a w-bit pattern, the
    lanes beyond N arbitrary) and [elems] lists its N elements.  [xscalar T F] is the C++ scalar type T: integers as in
    [Cxx], floats with the hardware's +, -, *, / given by an arbitrary [F]. *)
From Coq Require Import ZifyBool ZifyNat.
From Verif Require Import Base Cxx Spec Generic GenericProofs X86Vec X86 X86Lemmas X86Proofs X86Masks X86Ops X86Mem X86Shift X86MaskSpec Alias X86Scalar X86Prog X86ProgProofs.
Set Implicit Arguments.

(** The result is defined, well formed, and element i is the scalar operation wherever that is defined. *)
Definition op1_ok (X : xty) (f : Z -> res Z) (a : list vec) (r : res (list vec)) : Prop :=
  exists v, r = Ok v /\ shaped X v /\ refines1 (xN X) f (elems X a) (elems X v).
Definition op2_ok (X : xty) (f : Z -> Z -> res Z) (a b : list vec) (r : res (list vec)) : Prop :=
  exists v, r = Ok v /\ shaped X v /\ refines2 (xN X) f (elems X a) (elems X b) (elems X v).
(** ... a mask whose element i is [f]. Every lane is 0 or all ones. *)
Definition mask1_ok (X : xty) (f : Z -> bool) (a : list vec) (r : res (list vec)) : Prop :=
  exists v, r = Ok v /\ same_mask X v (map f (elems X a)).
Definition mask2_ok (X : xty) (f : Z -> Z -> bool) (a b : list vec) (r : res (list vec)) : Prop :=
  exists v, r = Ok v /\ same_mask X v (vmap2 f (elems X a) (elems X b)).

(** *** Helpers (not part of the statements) *)
Lemma nthlt {A} (l : list A) i n : length l = n -> i < n -> exists x, nth_error l i = Some x.
Proof. intros H Hi. destruct (nth_error l i) eqn:E; eauto. apply nth_error_None in E. lia. Qed.
Section Help.
Context (X : xty) (HX : xty_ok X).
Lemma el_word a i x : shaped X a -> nth_error (elems X a) i = Some x -> word (xw X) x.
Proof. intros Ha H. eapply words_In; [apply (elems_words Ha)|]. eapply nth_error_In; eauto. Qed.
Lemma map1_op f h a r : shaped X a -> is_map1 X f a r -> (forall x z, word (xw X) x -> h x = Ok z -> z = f x) -> op1_ok X h a r.
Proof.
  intros Ha (v & -> & S & L & E) H. exists v. split; [auto|split; [auto|split; [auto|]]]. intros i x y Hi Hx Hy.
  destruct (E i x Hi Hx) as (z & E1 & ->). inversion E1. f_equal. symmetry. apply H; [exact (el_word _ Ha Hx)|exact Hy].
Qed.
Lemma map2_op f h a b r : shaped X a -> shaped X b -> is_map2 X f a b r ->
  (forall x y z, word (xw X) x -> word (xw X) y -> h x y = Ok z -> z = f x y) -> op2_ok X h a b r.
Proof.
  intros Ha Hb (v & -> & S & L & E) H. exists v. split; [auto|split; [auto|split; [auto|]]]. intros i x y z Hi Hx Hy Hz.
  destruct (E i x y Hi Hx Hy) as (u & E1 & ->). inversion E1. f_equal. symmetry. apply H; [exact (el_word _ Ha Hx)|exact (el_word _ Hb Hy)|exact Hz].
Qed.
Lemma mask1_op f h a r : shaped X a -> is_map1 X (fun x => mlane (xw X) (f x)) a r -> (forall x, word (xw X) x -> f x = h x) -> mask1_ok X h a r.
Proof.
  intros Ha M H. destruct (is_map1_elems HX Ha M) as (v & -> & S & E). exists v. split; auto. split; auto. rewrite E, map_map.
  apply map_ext_in. intros x Hx. f_equal. apply H. eapply words_In; [apply (elems_words Ha)|auto].
Qed.
Lemma mask2_op f h a b r : shaped X a -> shaped X b -> is_map2 X (fun x y => mlane (xw X) (f x y)) a b r ->
  (forall x y, word (xw X) x -> word (xw X) y -> f x y = h x y) -> mask2_ok X h a b r.
Proof.
  intros Ha Hb M H. destruct (is_map2_elems HX Ha Hb M) as (v & -> & S & E). exists v. split; auto. split; auto. rewrite E.
  pose proof (elems_words Ha) as Wa. pose proof (elems_words Hb) as Wb. revert Wa Wb. generalize (elems X a) (elems X b). clear E S M. intros l.
  induction l as [|x l IH]; intros [|y l'] Wa Wb; cbn; auto. inversion Wa; inversion Wb; subst. rewrite H by auto. f_equal. auto.
Qed.
Lemma sim_op2 h a b r : shaped X a -> shaped X b -> ew2 X h a b r -> (forall v, r = Ok v -> refines2 (xN X) h (elems X a) (elems X b) (elems X v)).
Proof.
  intros Ha Hb [S E] v ->. cbn [rmap] in E. destruct E as [L E]. split; auto. intros i x y z Hi Hx Hy Hz. destruct (E i x y Hi Hx Hy) as (u & E1 & ->). congruence.
Qed.
End Help.

(** Configurations used in the examples: SSE2 only, 6 x int32 (two registers, two padding lanes); AVX2, 3 x double. *)
Definition sse2 : cfg := {| sse3 := false; ssse3 := false; sse41 := false; avx := false; avx2 := false |}.
Definition sse4 : cfg := {| sse3 := true; ssse3 := true; sse41 := true; avx := false; avx2 := false |}.
Definition avx1 : cfg := {| sse3 := true; ssse3 := true; sse41 := true; avx := true; avx2 := false |}.
Definition haswell : cfg := {| sse3 := true; ssse3 := true; sse41 := true; avx := true; avx2 := true |}.
Definition i32x6 : xty := {| xc := sse2; xT := {| esz := 4; ek := KInt true |}; xvs := 16; xN := 6 |}.
Definition f32x5 : xty := {| xc := sse4; xT := {| esz := 4; ek := KFloat |}; xvs := 16; xN := 5 |}.
Definition i64x4 : xty := {| xc := sse4; xT := {| esz := 8; ek := KInt true |}; xvs := 16; xN := 4 |}.
Definition i64x2 : xty := {| xc := sse2; xT := {| esz := 8; ek := KInt true |}; xvs := 16; xN := 2 |}.
Definition i8x17 : xty := {| xc := avx1; xT := {| esz := 1; ek := KInt false |}; xvs := 32; xN := 33 |}.
Ltac xok := unfold xty_ok, cfg_ok, ety_ok; cbn; intuition (try discriminate; try lia).
Lemma i32x6_ok : xty_ok i32x6. Proof. xok. Qed.
Lemma f32x5_ok : xty_ok f32x5. Proof. xok. Qed.
Lemma i64x4_ok : xty_ok i64x4. Proof. xok. Qed.
Lemma i64x2_ok : xty_ok i64x2. Proof. xok. Qed.
Lemma i8x17_ok : xty_ok i8x17. Proof. xok. Qed.
Ltac shp := unfold shaped, wfv, words, word; cbn; split; [reflexivity|repeat (constructor; [split; [reflexivity|repeat constructor; lia]|]); constructor].
Definition va : list vec := [[1; 2; 3; 4]; [5; 6; 777; 888]]%Z.
Definition vb : list vec := [[10; 20; 30; 2 ^ 32 - 1]; [50; 60; 9; 9]]%Z.
Lemma va_ok : shaped i32x6 va. Proof. shp. Qed.
Lemma vb_ok : shaped i32x6 vb. Proof. shp. Qed.
Definition noF : fops := {| f_add := fun _ x _ => x; f_sub := fun _ x _ => x; f_mul := fun _ x _ => x; f_div := fun _ x _ => x |}.
Lemma noF_ok X : fops_ok X noF. Proof. unfold fops_ok; cbn; auto. Qed.

(** *** C13 *)
Theorem C13_x86_binary_elementwise : forall X F junk o a b,
  xty_ok X -> fops_ok X F -> shaped X a -> shaped X b ->
  match o with
  | OpAdd | OpSub => True
  | OpAnd | OpOr | OpXor => is_int (xT X) = true
  | OpMul => is_int (xT X) = false \/ (sse41 (xc X) = true /\ esz (xT X) = 4)
  | OpDiv => is_int (xT X) = false
  | _ => False
  end ->
  op2_ok X (sc_bin (xscalar (xT X) F) o) a b (x_binary X F junk o a b).
Proof.
  intros X F junk o a b HX HF Ha Hb Ho. destruct o; try contradiction; cbn [x_binary].
  - eapply map2_op; [exact Ha|exact Hb|apply x_add_ok; auto|]. intros x y z _ _; apply (@add_refines X HX F).
  - eapply map2_op; [exact Ha|exact Hb|apply x_sub_ok; auto|]. intros x y z _ _; apply (@sub_refines X HX F).
  - destruct (is_int (xT X)) eqn:Ei.
    + unfold x_mul_i. replace (mul_native X) with true.
      2:{ destruct Ho as [Ho|[H1 H2]]; [discriminate|]. unfold mul_native. rewrite H1, H2. reflexivity. }
      eapply map2_op; [exact Ha|exact Hb|apply (x_mul_f_ok HX); auto|]. intros x y z _ _; apply (@mul_refines X HX F).
    + eapply map2_op; [exact Ha|exact Hb|apply (x_mul_f_ok HX); auto|]. intros x y z _ _; apply (@mul_refines X HX F).
  - rewrite Ho. eapply map2_op; [exact Ha|exact Hb|apply (x_div_f_ok HX); auto|]. intros x y z _ _; apply divf_refines; auto.
  - eapply map2_op; [exact Ha|exact Hb|apply x_and_ok; auto|]. intros x y z Hx Hy; apply (@and_refines X HX F); auto.
  - eapply map2_op; [exact Ha|exact Hb|apply x_or_ok; auto|]. intros x y z Hx Hy; apply (@or_refines X HX F); auto.
  - eapply map2_op; [exact Ha|exact Hb|apply x_xor_ok; auto|]. intros x y z Hx Hy; apply (@xor_refines X HX F); auto.
Qed.
Print Assumptions C13_x86_binary_elementwise.
Example C13_case : exists r, x_binary i32x6 noF [] OpAdd va vb = Ok r /\ elems i32x6 r = [11; 22; 33; 3; 55; 66]%Z.
Proof. eexists. split; reflexivity. Qed.

Theorem C13_x86_scalar_forms : forall X F junk o a v,
  xty_ok X -> fops_ok X F -> shaped X a -> word (xw X) v ->
  match o with
  | OpAdd | OpSub => True
  | OpAnd | OpOr | OpXor => is_int (xT X) = true
  | OpMul => is_int (xT X) = false \/ (sse41 (xc X) = true /\ esz (xT X) = 4)
  | OpDiv => is_int (xT X) = false
  | _ => False
  end ->
  op1_ok X (fun x => sc_bin (xscalar (xT X) F) o x v) a (x_binary_s X F junk o a v).
Proof.
  intros X F junk o a v HX HF Ha Hv Ho. destruct o; try contradiction; cbn [x_binary_s].
  - eapply map1_op; [exact Ha|apply x_add_s_ok; auto|]. intros x z _; apply (@add_refines X HX F).
  - eapply map1_op; [exact Ha|apply x_sub_s_ok; auto|]. intros x z _; apply (@sub_refines X HX F).
  - destruct (is_int (xT X)) eqn:Ei.
    + unfold x_mul_is. replace (mul_native X) with true.
      2:{ destruct Ho as [Ho|[H1 H2]]; [discriminate|]. unfold mul_native. rewrite H1, H2. reflexivity. }
      eapply map1_op; [exact Ha|apply (x_mul_fs_ok HX); auto|]. intros x z _; apply (@mul_refines X HX F).
    + eapply map1_op; [exact Ha|apply (x_mul_fs_ok HX); auto|]. intros x z _; apply (@mul_refines X HX F).
  - rewrite Ho. eapply map1_op; [exact Ha|apply (x_div_fs_ok HX); auto|]. intros x z _; apply divf_refines; auto.
  - eapply map1_op; [exact Ha|apply x_and_s_ok; auto|]. intros x z Hx; apply (@and_refines X HX F); auto.
  - eapply map1_op; [exact Ha|apply x_or_s_ok; auto|]. intros x z Hx; apply (@or_refines X HX F); auto.
  - eapply map1_op; [exact Ha|apply x_xor_s_ok; auto|]. intros x z Hx; apply (@xor_refines X HX F); auto.
Qed.
Print Assumptions C13_x86_scalar_forms.

Theorem C13_x86_unary : forall X F a,
  xty_ok X -> fops_ok X F -> shaped X a ->
  op1_ok X (sc_neg (xscalar (xT X) F)) a (x_neg X F a) /\
  op1_ok X (fun x => sc_bin (xscalar (xT X) F) OpAdd x (sc_one (xscalar (xT X) F))) a (x_inc X F (sc_one (xscalar (xT X) F)) a) /\
  op1_ok X (fun x => sc_bin (xscalar (xT X) F) OpSub x (sc_one (xscalar (xT X) F))) a (x_dec X F (sc_one (xscalar (xT X) F)) a).
Proof.
  intros X F a HX HF Ha. repeat split.
  - eapply map1_op; [exact Ha|apply x_neg_ok; auto|]. intros x z _; apply (@neg_refines X HX F).
  - eapply map1_op; [exact Ha|apply x_add_s_ok; auto; apply (@one_word X HX F)|]. intros x z _; apply (@add_refines X HX F).
  - eapply map1_op; [exact Ha|apply x_sub_s_ok; auto; apply (@one_word X HX F)|]. intros x z _; apply (@sub_refines X HX F).
Qed.
Print Assumptions C13_x86_unary.

(** Overflow wraps (no undefined behaviour), for signed and unsigned elements alike. *)
Theorem C13_x86_integers_wrap : forall X F a b,
  xty_ok X -> fops_ok X F -> is_int (xT X) = true -> shaped X a -> shaped X b ->
  (exists r, x_add X F a b = Ok r /\ elems X r = vmap2 (fun x y => (x + y) mod 2 ^ xw X)%Z (elems X a) (elems X b)) /\
  (exists r, x_sub X F a b = Ok r /\ elems X r = vmap2 (fun x y => (x - y) mod 2 ^ xw X)%Z (elems X a) (elems X b)) /\
  (exists r, x_neg X F a = Ok r /\ elems X r = map (fun x => (- x) mod 2 ^ xw X)%Z (elems X a)).
Proof.
  intros X F a b HX HF Hi Ha Hb. repeat split.
  - destruct (is_map2_elems HX Ha Hb (x_add_ok HX HF Ha Hb)) as (r & E & _ & Er). exists r. split; auto. rewrite Er.
    apply vmap2_ext. intros. unfold lane_add. rewrite Hi. reflexivity.
  - destruct (is_map2_elems HX Ha Hb (x_sub_ok HX HF Ha Hb)) as (r & E & _ & Er). exists r. split; auto. rewrite Er.
    apply vmap2_ext. intros. unfold lane_sub. rewrite Hi. reflexivity.
  - destruct (is_map1_elems HX Ha (x_neg_ok HX F Ha)) as (r & E & _ & Er). exists r. split; auto. rewrite Er.
    apply map_ext. intros. unfold lane_neg. rewrite Hi. reflexivity.
Qed.
Print Assumptions C13_x86_integers_wrap.

(** ~, /, % and the other integral multiplications go through arrays of N elements read back as whole registers:
    right when N is a multiple of the lane count ... *)
Theorem C13_x86_via_array_partial : forall X F junk a b,
  xty_ok X -> xN X mod ext X = 0 -> is_int (xT X) = true -> shaped X junk -> shaped X a -> shaped X b ->
  (forall o, o = OpDiv \/ o = OpMod \/ (o = OpMul /\ (sse41 (xc X) = false \/ esz (xT X) <> 4)) ->
     elementwise2 (xN X) (cxx_bin (ity_of (xT X)) o) (elems X a) (elems X b) (rmap (elems X) (x_binary X F junk o a b))) /\
  elementwise1 (xN X) (cxx_not (ity_of (xT X))) (elems X a) (rmap (elems X) (x_not X junk a)).
Proof.
  intros X F junk a b HX Hf Hi Hj Ha Hb. split.
  - intros o [->|[->|[-> Hn]]]; cbn [x_binary]; try rewrite Hi.
    + apply x_div_i_ok; auto.
    + apply x_mod_i_ok; auto.
    + unfold x_mul_i. replace (mul_native X) with false.
      2:{ unfold mul_native. destruct Hn as [->|Hn]; auto. apply Nat.eqb_neq in Hn. rewrite Hn, andb_false_r. auto. }
      apply packed2_op_ok; auto.
  - apply x_not_ok; auto.
Qed.
Print Assumptions C13_x86_via_array_partial.
Example C13_via_array_case : 
  x_not i64x2 [[0; 0]]%Z [[0; 5]]%Z = Ok [[2 ^ 64 - 1; 2 ^ 64 - 6]]%Z /\
  x_binary i64x2 noF [[0; 0]]%Z OpDiv [[7; 2 ^ 64 - 7]]%Z [[2; 2]]%Z = Ok [[3; 2 ^ 64 - 3]]%Z.
Proof. split; reflexivity. Qed.
(** ... and an out-of-bounds access for every other N. *)
Theorem C13_x86_via_array_refuted : forall X F junk a b,
  xty_ok X -> xN X mod ext X <> 0 -> is_int (xT X) = true ->
  x_not X junk a = UB /\
  (forall o, o = OpDiv \/ o = OpMod \/ (o = OpMul /\ (sse41 (xc X) = false \/ esz (xT X) <> 4)) -> x_binary X F junk o a b = UB).
Proof.
  intros X F junk a b HX Hf Hi. split; [apply via_array1_ub; auto|].
  intros o [->|[->|[-> Hn]]]; cbn [x_binary]; try rewrite Hi; try (apply via_array2_ub; auto).
  unfold x_mul_i. replace (mul_native X) with false.
  2:{ unfold mul_native. destruct Hn as [->|Hn]; auto. apply Nat.eqb_neq in Hn. rewrite Hn, andb_false_r. auto. }
  rewrite to_packed_ub; auto.
Qed.
Print Assumptions C13_x86_via_array_refuted.
Example C13_refuted_case : xty_ok i32x6 /\ xN i32x6 mod ext i32x6 = 2 /\ x_not i32x6 va va = UB.
Proof. split; [exact i32x6_ok|split; reflexivity]. Qed.

(** *** C14 *)
(** Masks with lanes 0 / all ones are closed under every operator, which acts as the boolean one. *)
Theorem C14_x86_mask_binary_partial : forall X o a b ga gb,
  xty_ok X -> o <> MLAnd -> same_mask X a ga -> same_mask X b gb ->
  exists r, x_mask_binary X o a b = Ok r /\ same_mask X r (vmap2 (mask_bin_meaning o) ga gb).
Proof.
  intros X o a b ga gb HX Ho Ha Hb. destruct (same_mask_elems HX Ha) as [_ La]. destruct (same_mask_elems HX Hb) as [_ Lb].
  pose proof (mask_binary_elementwise o (xN X) ga gb La Lb) as E. destruct (mask_binary o (xN X) ga gb) as [g|] eqn:Eg.
  - destruct (mask_binary_sim HX Ho Ha Hb Eg) as (r & Er & Hr). exists r. split; auto. replace (vmap2 _ ga gb) with g; auto.
    destruct E as [Lg E]. apply nth_ext_list; [rewrite vmap2_length; lia|]. intros i Hi.
    destruct (@nthlt _ ga i (xN X) La ltac:(lia)) as [x Hx]. destruct (@nthlt _ gb i (xN X) Lb ltac:(lia)) as [y Hy].
    destruct (E i x y ltac:(lia) Hx Hy) as (z & Ez & ->). inversion Ez. symmetry. apply nth_error_vmap2; auto.
  - destruct E as (i & x & y & _ & _ & _ & E). discriminate.
Qed.
Print Assumptions C14_x86_mask_binary_partial.
Theorem C14_x86_mask_not : forall X a ga,
  xty_ok X -> same_mask X a ga ->
  (exists r, mask_not X a = Ok r /\ same_mask X r (map negb ga)) /\ (exists r, mask_lnot X a = Ok r /\ same_mask X r (map negb ga)).
Proof.
  intros X a ga HX Ha. assert (H : exists r, mask_not X a = Ok r /\ same_mask X r (map negb ga)); [|split; exact H].
  destruct Ha as [Sa Ea]. destruct (is_map1_elems HX Sa (mask_not_ok HX Sa)) as (v & Ev & Sv & EE).
  exists v. split; auto. split; auto. rewrite EE, Ea, !map_map. apply map_ext. intros. apply ones_sub_mlane.
Qed.
Print Assumptions C14_x86_mask_not.
(** Any expression built from any canonical masks. *)
Inductive mexpr := EIn (i : nat) | ENot (a : mexpr) | EBin (o : mask_bin) (a b : mexpr) | EBlend (c a b : mexpr).
Fixpoint no_land (e : mexpr) : Prop :=
  match e with EIn _ => True | ENot a => no_land a | EBin o a b => o <> MLAnd /\ no_land a /\ no_land b | EBlend c a b => no_land c /\ no_land a /\ no_land b end.
Fixpoint x_eval (X : xty) (env : nat -> list vec) (e : mexpr) : res (list vec) :=
  match e with
  | EIn i => Ok (env i)
  | ENot a => x <- x_eval X env a;; mask_not X x
  | EBin o a b => x <- x_eval X env a;; y <- x_eval X env b;; x_mask_binary X o x y
  | EBlend c a b => m <- x_eval X env c;; x <- x_eval X env a;; y <- x_eval X env b;; x_blend X m x y
  end.
Fixpoint b_eval (env : nat -> bool) (e : mexpr) : bool :=
  match e with
  | EIn i => env i | ENot a => negb (b_eval env a) | EBin o a b => mask_bin_meaning o (b_eval env a) (b_eval env b)
  | EBlend c a b => if b_eval env c then b_eval env a else b_eval env b
  end.
Theorem C14_x86_mask_history_partial : forall X e env genv,
  xty_ok X -> no_land e -> (forall i, same_mask X (env i) (genv i)) ->
  exists r, x_eval X env e = Ok r /\ shaped X r /\
    forall k, k < xN X -> nth_error (elems X r) k = Some (mlane (xw X) (b_eval (fun i => nth k (genv i) false) e)).
Proof.
  intros X e env genv HX He Henv.
  assert (G : exists r g, x_eval X env e = Ok r /\ same_mask X r g /\ forall k, k < xN X -> nth_error g k = Some (b_eval (fun i => nth k (genv i) false) e)).
  { induction e as [i|a IHa|o a IHa b IHb|c IHc a IHa b IHb]; cbn [x_eval b_eval no_land] in *.
    - exists (env i), (genv i). split; auto. split; auto. intros k Hk. apply nth_error_nth'. destruct (same_mask_elems HX (Henv i)) as [_ L]. lia.
    - destruct (IHa He) as (r & g & E & S & H). rewrite E. cbn [bind]. destruct (C14_x86_mask_not HX S) as [(r' & E' & S') _]. exists r', (map negb g). split; auto. split; auto.
      intros k Hk. rewrite nth_error_map, (H k Hk). reflexivity.
    - destruct He as (Ho & H1 & H2). destruct (IHa H1) as (r1 & g1 & E1 & S1 & G1). destruct (IHb H2) as (r2 & g2 & E2 & S2 & G2). rewrite E1, E2. cbn [bind].
      destruct (C14_x86_mask_binary_partial HX Ho S1 S2) as (r & E & S). exists r, (vmap2 (mask_bin_meaning o) g1 g2). split; auto. split; auto.
      intros k Hk. apply nth_error_vmap2; auto.
    - destruct He as (H0 & H1 & H2). destruct (IHc H0) as (r0 & g0 & E0 & S0 & G0). destruct (IHa H1) as (r1 & g1 & E1 & S1 & G1). destruct (IHb H2) as (r2 & g2 & E2 & S2 & G2).
      rewrite E0, E1, E2. cbn [bind]. destruct (blend_core HX r1 S0 (proj1 S1) (proj1 S2)) as (r & E & S & K). exists r, (vmap3 (fun (c a b : bool) => if c then a else b) g0 g1 g2).
      destruct (same_mask_elems HX S0) as [_ L0]. destruct (same_mask_elems HX S1) as [_ L1]. destruct (same_mask_elems HX S2) as [_ L2].
      assert (N3 : forall k, k < xN X -> nth_error (vmap3 (fun (c a b : bool) => if c then a else b) g0 g1 g2) k =
         Some (if b_eval (fun i => nth k (genv i) false) c then b_eval (fun i => nth k (genv i) false) a else b_eval (fun i => nth k (genv i) false) b))
       by (intros k Hk; apply (nth_error_vmap3 (fun (c a b : bool) => if c then a else b) g0 g1 g2 k (G0 k Hk) (G1 k Hk) (G2 k Hk))).
      split; auto. split; [|exact N3]. split; auto. apply nth_ext_list.
      + rewrite map_length, (elems_length HX S), vmap3_length by lia. lia.
      + intros k Hk. rewrite (elems_length HX S) in Hk. rewrite nth_error_map, (N3 k Hk). cbn [option_map].
        destruct S1 as [S1 V1], S2 as [S2 V2].
        rewrite (K k (b_eval (fun i => nth k (genv i) false) c) (mlane (xw X) (b_eval (fun i => nth k (genv i) false) a)) (mlane (xw X) (b_eval (fun i => nth k (genv i) false) b))); auto.
        * destruct (b_eval _ c); auto.
        * rewrite V1, nth_error_map, (G1 k Hk). reflexivity.
        * rewrite V2, nth_error_map, (G2 k Hk). reflexivity. }
  destruct G as (r & g & E & S & H). exists r. split; auto. destruct S as [S V]. split; auto. intros k Hk. rewrite V, nth_error_map, (H k Hk). reflexivity.
Qed.
Print Assumptions C14_x86_mask_history_partial.
Definition ma : list vec := [[2 ^ 32 - 1; 0; 0; 2 ^ 32 - 1]; [0; 2 ^ 32 - 1; 17; 4]]%Z.
Lemma ma_ok : same_mask i32x6 ma [true; false; false; true; false; true]. Proof. split; [shp|reflexivity]. Qed.
Example C14_case : exists r, x_eval i32x6 (fun _ => ma) (EBin MXor (ENot (EIn 0)) (EIn 0)) = Ok r /\ elems i32x6 r = repeat (2 ^ 32 - 1)%Z 6.
Proof. eexists. split; reflexivity. Qed.
(** | and || on any representation of true. *)
Theorem C14_x86_or_any_representation : forall X a b,
  xty_ok X -> shaped X a -> shaped X b ->
  (exists r, mask_or X a b = Ok r /\ shaped X r /\ mask_elems X r = vmap2 orb (mask_elems X a) (mask_elems X b)) /\
  (exists r, mask_lor X a b = Ok r /\ same_mask X r (vmap2 orb (mask_elems X a) (mask_elems X b))).
Proof.
  intros X a b HX Ha Hb. pose proof (elems_words Ha) as Wa. pose proof (elems_words Hb) as Wb. split.
  - destruct (is_map2_elems HX Ha Hb (mask_or_ok HX Ha Hb)) as (r & E & S & Er). exists r. split; auto. split; auto. unfold mask_elems. rewrite Er.
    revert Wa Wb. generalize (elems X a) (elems X b). intros l. induction l as [|x l IH]; intros [|y l'] Wa Wb; cbn; auto.
    inversion Wa; inversion Wb; subst. f_equal; auto.
    destruct (Z.eqb_spec (Z.lor x y) 0) as [E0|E0]; rewrite Z.lor_eq_0_iff in E0; destruct (Z.eqb_spec x 0), (Z.eqb_spec y 0); cbn; auto; tauto.
  - destruct (is_map2_elems HX Ha Hb (mask_lor_ok HX Ha Hb)) as (r & E & S & Er). exists r. split; auto. split; auto. rewrite Er. unfold mask_elems.
    generalize (elems X a) (elems X b). intros l. induction l as [|x l IH]; intros [|y l']; cbn; auto. f_equal; auto.
Qed.
Print Assumptions C14_x86_or_any_representation.
(** && is false for every element whatever the operands. *)
Theorem C14_x86_land_refuted : forall X a b,
  xty_ok X -> shaped X a -> shaped X b -> exists r, mask_land X a b = Ok r /\ mask_elems X r = repeat false (xN X).
Proof.
  intros X a b HX Ha Hb. exists (zeros X). split; [apply mask_land_zero; auto|]. unfold mask_elems, zeros.
  rewrite elems_zeros, map_repeat; auto.
Qed.
Print Assumptions C14_x86_land_refuted.
Example C14_land_case : exists r, mask_land i32x6 ma ma = Ok r /\ mask_elems i32x6 r = repeat false 6 /\ mask_elems i32x6 ma = [true; false; false; true; false; true].
Proof. eexists. split; [reflexivity|split; reflexivity]. Qed.
(** A mask element whose lane is neither 0 nor all ones (signbit() returns such masks): ~ leaves it true, == of two
    true elements is false, & of two true elements may be false, ^ of two true elements true. *)
Theorem C14_x86_noncanonical_refuted : exists X a b, xty_ok X /\ shaped X a /\ shaped X b /\
  mask_elems X a = [true; true; true; true; true] /\ mask_elems X b = mask_elems X a /\
  (exists r, mask_not X a = Ok r /\ mask_elems X r = [true; true; true; true; true]) /\
  (exists r, mask_meq X a b = Ok r /\ mask_elems X r = [false; false; false; false; false]) /\
  (exists r, mask_and X a b = Ok r /\ mask_elems X r = [false; false; false; false; false]) /\
  (exists r, mask_xor X a b = Ok r /\ mask_elems X r = [true; true; true; true; true]).
Proof.
  exists f32x5, (repeat (repeat (2 ^ 31)%Z 4) 2), (repeat (repeat 1%Z 4) 2). split; [exact f32x5_ok|]. split; [shp|]. split; [shp|].
  split; [reflexivity|]. split; [reflexivity|]. repeat split; eexists; split; reflexivity.
Qed.
Print Assumptions C14_x86_noncanonical_refuted.

(** *** C15 *)
(** [tails_safe]: not (AVX without AVX2, 1- or 2-byte elements in 256-bit registers, tail at most half a register).
    [no_neg_zero]: for float/double masks no element lane is the pattern of -0. *)
Theorem C15_x86_mask_reductions_partial : forall X m,
  xty_ok X -> tails_safe X -> shaped X m -> no_neg_zero X m ->
  x_all_of X m = Ok (forallb id (mask_elems X m)) /\
  x_any_of X m = Ok (existsb id (mask_elems X m)) /\
  x_none_of X m = Ok (negb (existsb id (mask_elems X m))) /\
  x_some_of X m = Ok (existsb id (mask_elems X m) && negb (forallb id (mask_elems X m))) /\
  x_reduce_count X m = Ok (count_true (mask_elems X m)).
Proof.
  intros X m HX Ht Hm Hn. pose proof (mask_elems_length HX Hm) as L.
  rewrite x_all_of_ok by auto. destruct (x_any_of_ok HX Ht Hm (or_intror Hn)) as [-> ->]. rewrite x_some_of_ok by auto. rewrite x_reduce_count_ok by auto.
  rewrite all_of_forallb, any_of_existsb, none_of_existsb, some_of_closed by auto. repeat split; reflexivity.
Qed.
Print Assumptions C15_x86_mask_reductions_partial.
(** Masks of any history satisfy [no_neg_zero] (C14). *)
Theorem C15_x86_canonical_masks : forall X m g, xty_ok X -> tails_safe X -> same_mask X m g ->
  x_all_of X m = Ok (forallb id g) /\ x_any_of X m = Ok (existsb id g) /\ x_none_of X m = Ok (negb (existsb id g)) /\
  x_some_of X m = Ok (existsb id g && negb (forallb id g)) /\ x_reduce_count X m = Ok (count_true g).
Proof.
  intros X m g HX Ht Hm. destruct (same_mask_elems HX Hm) as [<- _]. apply C15_x86_mask_reductions_partial; auto; [apply Hm|]. eapply same_mask_good; eauto.
Qed.
Print Assumptions C15_x86_canonical_masks.
Example C15_case : tails_safe i32x6 /\ x_reduce_count i32x6 ma = Ok 3 /\ x_all_of i32x6 ma = Ok false.
Proof. split; [left; reflexivity|split; reflexivity]. Qed.
(** Without [tails_safe] padding is counted: AVX without AVX2, 33 x uint8. *)
Definition m33 (p : Z) : list vec := [repeat 0%Z 32; 0%Z :: repeat p 31].
Theorem C15_x86_padding_refuted : exists X m, xty_ok X /\ shaped X m /\ same_mask X m (repeat false 33) /\
  x_any_of X m = Ok true /\ x_reduce_count X m <> Ok 0.
Proof.
  exists i8x17, (m33 255). split; [exact i8x17_ok|]. assert (S : shaped i8x17 (m33 255)) by shp. split; [exact S|]. split; [split; [exact S|reflexivity]|].
  split; [reflexivity|]. intros H. vm_compute in H. discriminate.
Qed.
Print Assumptions C15_x86_padding_refuted.
(** A float mask whose true lanes hold only the sign bit (as signbit() makes): all_of is false, reduce_count 0. *)
Theorem C15_x86_signbit_refuted : exists X m, xty_ok X /\ tails_safe X /\ shaped X m /\ mask_elems X m = repeat true 5 /\
  x_all_of X m = Ok false /\ x_reduce_count X m = Ok 0.
Proof.
  exists f32x5, (repeat (repeat (2 ^ 31)%Z 4) 2). split; [exact f32x5_ok|]. split; [left; reflexivity|]. split; [shp|]. repeat split; reflexivity.
Qed.
Print Assumptions C15_x86_signbit_refuted.

(** *** C16 *)
Theorem C16_x86_min_index : forall X m i,
  xty_ok X -> shaped X m -> no_neg_zero X m -> first_true (mask_elems X m) i -> x_reduce_min_index X m = Ok i.
Proof. intros X m i HX; exact (@x_min_index_ok X HX m i). Qed.
Print Assumptions C16_x86_min_index.
Theorem C16_x86_max_index_partial : forall X m i,
  xty_ok X -> shaped X m -> no_neg_zero X m -> last_true (mask_elems X m) i ->
  xN X mod ext X = 0 \/ i < xN X / ext X * ext X -> x_reduce_max_index X m = Ok i.
Proof.
  intros X m i HX Sm G Hi Hc. rewrite (@x_max_index_ok X HX m i Sm G Hi). rewrite (@max_shift_zero X HX i Hc).
  - rewrite Nat.add_0_r. auto.
  - pose proof (mask_elems_length HX Sm). destruct Hi as [Hi _]. assert (i < length (mask_elems X m)) by (apply nth_error_Some; congruence). lia.
Qed.
Print Assumptions C16_x86_max_index_partial.
Example C16_case : x_reduce_min_index i32x6 ma = Ok 0 /\ first_true (mask_elems i32x6 ma) 0 /\ last_true (mask_elems i32x6 ma) 5.
Proof.
  split; [reflexivity|split; split; try reflexivity]; cbn; intros j Hj; [lia|]. intros; lia.
Qed.
(** In an incomplete last register the answer is too large by the number of padding lanes. *)
Theorem C16_x86_max_index_refuted : forall X m i,
  xty_ok X -> shaped X m -> no_neg_zero X m -> last_true (mask_elems X m) i ->
  xN X mod ext X <> 0 -> xN X / ext X * ext X <= i -> x_reduce_max_index X m = Ok (i + (ext X - xN X mod ext X)).
Proof.
  intros X m i HX Sm G Hi Hc Hl. rewrite (@x_max_index_ok X HX m i Sm G Hi). do 2 f_equal.
  pose proof (mask_elems_length HX Sm) as L. assert (Hi' : i < xN X) by (rewrite <- L; apply nth_error_Some; destruct Hi; congruence).
  pose proof (e_pos HX) as He.
  pose proof (Nat.div_mod_eq (xN X) (ext X)) as D. pose proof (Nat.mod_upper_bound (xN X) (ext X) ltac:(lia)) as B.
  unfold max_shift, dsz. destruct (Nat.eqb_spec (xN X mod ext X) 0); [lia|].
  assert (Q : i / ext X = xN X / ext X). { revert D B Hl Hi' He. clear. generalize (xN X / ext X) as q, (xN X mod ext X) as r. generalize (ext X) as e, (xN X) as N. intros e N q r D B Hl Hi He. symmetry. apply (Nat.div_unique i e q (i - e * q)); lia. }
  rewrite Q, Nat.add_sub, Nat.eqb_refl. revert D B. clear. generalize (xN X / ext X) as q, (xN X mod ext X) as r. generalize (ext X) as e, (xN X) as N. intros e N q r D B. nia.
Qed.
Print Assumptions C16_x86_max_index_refuted.
Example C16_refuted_case : x_reduce_max_index i32x6 ma = Ok 7 /\ last_true (mask_elems i32x6 ma) 5.
Proof. split; [reflexivity|]. split; [reflexivity|]. cbn. intros; lia. Qed.

(** *** C17 *)
Theorem C17_x86_comparisons_partial : forall X F o a b,
  xty_ok X -> shaped X a -> shaped X b ->
  match o with CEq | CNe => True | _ => ek (xT X) = KInt true \/ ek (xT X) = KFloat end ->
  mask2_ok X (sc_cmp (xscalar (xT X) F) o) a b (x_compare X o a b).
Proof.
  intros X F o a b HX Ha Hb Ho.
  pose proof (elems_length HX Ha) as La. pose proof (elems_length HX Hb) as Lb.
  pose proof (simd_cmp_elementwise (xscalar (xT X) F) o (xN X) (elems X a) (elems X b) La Lb) as E.
  pose proof (@compare_sim_any X HX F o a b Ho Ha Hb) as C. destruct (simd_cmp (xscalar (xT X) F) o (xN X) (elems X a) (elems X b)) as [g|] eqn:Eg.
  - destruct (C g eq_refl) as (r & Er & Hr). exists r. split; auto. replace (vmap2 _ (elems X a) (elems X b)) with g; auto.
    destruct E as [Lg E]. apply nth_ext_list; [rewrite vmap2_length; lia|]. intros i Hi.
    destruct (@nthlt _ (elems X a) i (xN X) La ltac:(lia)) as [x Hx]. destruct (@nthlt _ (elems X b) i (xN X) Lb ltac:(lia)) as [y Hy].
    destruct (E i x y ltac:(lia) Hx Hy) as (z & Ez & ->). inversion Ez. symmetry. apply nth_error_vmap2; auto.
  - destruct E as (i & x & y & _ & _ & _ & E). discriminate.
Qed.
Print Assumptions C17_x86_comparisons_partial.
(** 64-bit == and > built from 32-bit compares (no SSE4.1): the two-lane register operations themselves. *)
Theorem C17_x86_emulated_64bit : forall X x0 x1 y0 y1,
  xty_ok X -> esz (xT X) = 8 -> is_int (xT X) = true -> xvs X = 16 -> sse41 (xc X) = false ->
  word 64 x0 -> word 64 x1 -> word 64 y0 -> word 64 y1 ->
  cmp_eq X [x0; x1] [y0; y1] = [mlane 64 (x0 =? y0)%Z; mlane 64 (x1 =? y1)%Z] /\
  cmp_gt X [x0; x1] [y0; y1] = [mlane 64 (sgn 64 y0 <? sgn 64 x0)%Z; mlane 64 (sgn 64 y1 <? sgn 64 x1)%Z].
Proof.
  intros X x0 x1 y0 y1 HX He Hi Hv _ H1 H2 H3 H4.
  assert (W : xw X = 64%Z) by (unfold xw, ew; rewrite He; reflexivity). assert (Ex : ext X = 2) by (unfold ext; rewrite He, Hv; reflexivity).
  assert (Wa : wfv X [x0; x1]) by (unfold wfv, words; rewrite Ex, W; repeat constructor; auto; apply H1 || apply H2).
  assert (Wb : wfv X [y0; y1]) by (unfold wfv, words; rewrite Ex, W; repeat constructor; auto; apply H3 || apply H4).
  rewrite (cmp_eq_lanes HX Wa Wb), (cmp_gt_lanes HX Wa Wb). unfold lane_eq, lane_gt. rewrite W. unfold is_int in Hi. destruct (ek (xT X)); [|discriminate].
  cbn [vmap2]. rewrite !Z.gtb_ltb. auto.
Qed.
Print Assumptions C17_x86_emulated_64bit.
Example C17_case : exists r, x_compare i64x2 CGt [[2 ^ 32; 2 ^ 64 - 1]]%Z [[2 ^ 32 - 1; 0]]%Z = Ok r /\ mask_elems i64x2 r = [true; false].
Proof. eexists. split; reflexivity. Qed.

(** *** C18 *)
Theorem C18_x86_shift_functions_partial : forall X n a,
  xty_ok X -> is_int (xT X) = true -> (0 <= n < xw X)%Z -> shaped X a ->
  (exists r, x_lsl X n a = Ok r /\ shaped X r /\ elems X r = map (shl_bits (xw X) n) (elems X a)) /\
  (exists r, x_asl X n a = Ok r /\ shaped X r /\ elems X r = map (shl_bits (xw X) n) (elems X a)) /\
  (exists r, x_lsr X n a = Ok r /\ shaped X r /\ elems X r = map (lshr_bits n) (elems X a)) /\
  (esz (xT X) <> 8 \/ (n = 0 \/ 32 <= n)%Z ->
   exists r, x_asr X n a = Ok r /\ shaped X r /\ elems X r = map (ashr_bits (xw X) n) (elems X a)).
Proof.
  intros X n a HX _ Hn Ha. split; [|split; [|split]].
  - exact (is_map1_elems HX Ha (@x_lsl_ok X HX n a Ha)).
  - exact (is_map1_elems HX Ha (@x_asl_ok X HX n a Ha)).
  - exact (is_map1_elems HX Ha (@x_lsr_ok X HX n a ltac:(lia) Ha)).
  - intros Hc. exact (is_map1_elems HX Ha (@x_asr_ok X HX n a Hn Hc Ha)).
Qed.
Print Assumptions C18_x86_shift_functions_partial.
(** asr<n> on 64-bit elements for every n in 1..31 loses the bits that cross the middle of the element. *)
Theorem C18_x86_asr64_refuted : forall n, (0 < n < 32)%Z ->
  exists r, x_asr i64x4 n [[2 ^ 32; 0]; [0; 0]]%Z = Ok r /\ nth_error (elems i64x4 r) 0 = Some 0%Z /\ ashr_bits 64 n (2 ^ 32) = (2 ^ (32 - n))%Z.
Proof.
  intros n Hn. assert (S : shaped i64x4 [[2 ^ 32; 0]; [0; 0]]%Z) by shp.
  destruct (is_map1_elems i64x4_ok S (@x_asr_any i64x4 i64x4_ok n _ ltac:(lia) S)) as (r & E & _ & Er).
  destruct (asr_lane_lost Hn) as [L1 L2]. exists r. split; auto. split; auto. rewrite Er. cbn [elems firstn concat app map nth_error]. 
  change (Some (asr_lane n (2 ^ 32)) = Some 0%Z). rewrite L1. reflexivity.
Qed.
Print Assumptions C18_x86_asr64_refuted.
(** Operators with native shifts (SSE4.1, 64-bit elements): << is right, >> is the logical shift. *)
Theorem C18_x86_native_shifts : forall X d a b n,
  xty_ok X -> sse41 (xc X) = true -> esz (xT X) = 8 -> shaped X a -> shaped X b -> word (xw X) n ->
  let sl := fun x k => if (k <? xw X)%Z then shl_bits (xw X) k x else 0%Z in
  let sr := fun x k => if (k <? xw X)%Z then lshr_bits k x else 0%Z in
  (exists r, x_shl X d a b = Ok r /\ shaped X r /\ elems X r = vmap2 sl (elems X a) (elems X b)) /\
  (exists r, x_shr X d a b = Ok r /\ shaped X r /\ elems X r = vmap2 sr (elems X a) (elems X b)) /\
  (exists r, x_shl_s X d a n = Ok r /\ shaped X r /\ elems X r = map (fun x => sl x n) (elems X a)) /\
  (exists r, x_shr_s X d a n = Ok r /\ shaped X r /\ elems X r = map (fun x => sr x n) (elems X a)).
Proof.
  intros X d a b n HX H1 H2 Ha Hb Hn sl sr. assert (SN : shift_native X = true) by (unfold shift_native; rewrite H1, H2; reflexivity).
  split; [|split; [|split]].
  - exact (is_map2_elems HX Ha Hb (x_shl_native HX d SN Ha Hb)).
  - exact (is_map2_elems HX Ha Hb (x_shr_native HX d SN Ha Hb)).
  - exact (is_map1_elems HX Ha (x_shl_s_native HX d SN Ha Hn)).
  - exact (is_map1_elems HX Ha (x_shr_s_native HX d SN Ha Hn)).
Qed.
Print Assumptions C18_x86_native_shifts.
Theorem C18_x86_operators_partial : forall X F junk a b n,
  xty_ok X -> fops_ok X F -> is_int (xT X) = true -> shaped X junk -> shaped X a -> shaped X b -> (0 <= n < xw X)%Z ->
  ((sse41 (xc X) = true /\ esz (xT X) = 8) \/ xN X mod ext X = 0) ->
  (* a << b, where every count is in range *)
  (forall r, simd_binary (int_scalar (ity_of (xT X))) OpShl (xN X) (elems X a) (elems X b) = Ok r ->
     exists v, x_shl X junk a b = Ok v /\ same_vec X v r) /\
  (* a << n *)
  (exists v, x_shl_s X junk a n = Ok v /\ same_vec X v (map (shl_bits (xw X) n) (elems X a))) /\
  (* a >> n: arithmetic for signed elements, unless 64-bit native *)
  ((sse41 (xc X) = false \/ esz (xT X) <> 8 \/ ek (xT X) = KInt false) ->
   exists v, x_shr_s X junk a n = Ok v /\
     same_vec X v (map (fun x => if isg (ity_of (xT X)) then ashr_bits (xw X) n x else lshr_bits n x) (elems X a))).
Proof.
  intros X F junk a b n HX HF Hi Hj Ha Hb Hn Hc. pose proof (elems_length HX Ha) as La. pose proof (elems_words Ha) as Wa.
  assert (SC : sc_bin (xscalar (xT X) F) = cxx_bin (ity_of (xT X))) by (unfold xscalar; cbn [sc_bin]; rewrite Hi; reflexivity).
  assert (SS : sc_shift (xscalar (xT X) F) = cxx_shift (ity_of (xT X))) by (unfold xscalar; cbn [sc_shift]; rewrite Hi; reflexivity).
  assert (NC : shift_native X = true \/ full X).
  { destruct Hc as [[H1 H2]|H]; [left; unfold shift_native; rewrite H1, H2; reflexivity|right; exact H]. }
  assert (G : forall (l : bool) (f : Z -> Z), (forall x, word (xw X) x -> cxx_shift (ity_of (xT X)) l x n = Ok (f x)) ->
     simd_shift_s (xscalar (xT X) F) l (xN X) (elems X a) n = Ok (map f (elems X a))).
  { intros l f Hf. pose proof (simd_shift_s_elementwise (xscalar (xT X) F) l (xN X) (elems X a) n La) as E. rewrite SS in E.
    destruct (simd_shift_s (xscalar (xT X) F) l (xN X) (elems X a) n) as [g|].
    - f_equal. destruct E as [Lg E]. apply nth_ext_list; [rewrite map_length; lia|]. intros i Hi'. destruct (@nthlt _ (elems X a) i (xN X) La ltac:(lia)) as [x Hx].
      destruct (E i x ltac:(lia) Hx) as (y & E1 & ->). rewrite (Hf x (el_word _ Ha Hx)) in E1. inversion E1. rewrite nth_error_map, Hx. reflexivity.
    - destruct E as (i & x & _ & Hx & E). rewrite (Hf x (el_word _ Ha Hx)) in E. discriminate. }
  split; [|split].
  - intros r Hr. assert (Sp : supported X (IBin OpShl 0 0 0)) by (split; auto).
    pose proof (@binary_sim X HX F HF junk OpShl a b 0 0 0 Sp Hj Ha Hb) as S. apply S. unfold simd_binary in *. rewrite SC. exact Hr.
  - assert (Sp : supported X (IShiftS true 0 0 n)).
    { split; [auto|split; [auto|]]. destruct (shift_native X) eqn:En; auto. destruct NC; [discriminate|auto]. }
    apply (@shift_s_sim X HX F junk true a 0 0 n Sp Hj Ha). apply G. intros x Hx. apply promote_word_shl; auto. apply (t_ok HX).
  - intros Hx. assert (Sp : supported X (IShiftS false 0 0 n)).
    { split; [auto|split; [auto|]]. destruct (shift_native X) eqn:En; [|destruct NC; [discriminate|auto]].
      unfold shift_native in En. apply andb_prop in En. destruct En as [E1 E2]. apply Nat.eqb_eq in E2. destruct Hx as [H|[H|H]]; auto; congruence. }
    apply (@shift_s_sim X HX F junk false a 0 0 n Sp Hj Ha). apply G. intros x Hx'. apply (cxx_shift_right (ity_of (xT X)) x n (t_ok HX) Hx' Hn).
Qed.
Print Assumptions C18_x86_operators_partial.
Example C18_case : x_shr_s {| xc := sse2; xT := {| esz := 4; ek := KInt true |}; xvs := 16; xN := 4 |} [[0; 0; 0; 0]]%Z [[2 ^ 32 - 8; 8; 16; 1]]%Z 2 =
  Ok [[2 ^ 32 - 2; 2; 4; 0]]%Z.
Proof. reflexivity. Qed.
(** >> of negative 64-bit elements with SSE4.1 shifts in zeros; >> by a vector elsewhere is <<; N not a multiple of the
    lane count is out of bounds; <<= and >>= by a vector are each other's operator. *)
Theorem C18_x86_shift_right_refuted :
  (exists v, x_shr_s i64x4 [[0; 0]; [0; 0]]%Z [[2 ^ 64 - 8; 0]; [0; 0]]%Z 1 = Ok v /\ nth_error (elems i64x4 v) 0 = Some (2 ^ 63 - 4)%Z) /\
  (forall X d a b, xty_ok X -> sse41 (xc X) = false -> x_shr X d a b = x_shl X d a b) /\
  (forall X d a b n, xty_ok X -> sse41 (xc X) = false \/ esz (xT X) <> 8 -> xN X mod ext X <> 0 ->
     x_shl X d a b = UB /\ x_shr X d a b = UB /\ x_shl_s X d a n = UB /\ x_shr_s X d a n = UB) /\
  (forall X d a b, x_shl_assign X d a b = x_shr X d a b /\ x_shr_assign X d a b = x_shl X d a b).
Proof.
  split; [eexists; split; reflexivity|]. split; [|split].
  - intros X d a b _ H. unfold x_shr, x_shl, shift_native. rewrite H. reflexivity.
  - intros X d a b n HX Hs Hf. assert (SN : shift_native X = false).
    { unfold shift_native. destruct Hs as [->|Hs]; auto. apply Nat.eqb_neq in Hs. rewrite Hs, andb_false_r. auto. }
    unfold x_shl, x_shr, x_shl_s, x_shr_s. rewrite SN, to_packed_ub by auto. auto.
  - intros; split; reflexivity.
Qed.
Print Assumptions C18_x86_shift_right_refuted.

(** *** C21 *)
Theorem C21_x86_blend : forall X m a b,
  xty_ok X -> shaped X m -> shaped X a -> shaped X b ->
  exists r, x_blend X m a b = Ok r /\ shaped X r /\ length (elems X r) = xN X /\
    forall i c x y, i < xN X -> nth_error (mask_elems X m) i = Some c -> nth_error (elems X a) i = Some x -> nth_error (elems X b) i = Some y ->
      nth_error (elems X r) i = Some (if c then x else y).
Proof.
  intros X m a b HX Hm Ha Hb. destruct (x_blend_ok HX Hm Ha Hb) as (r & E & S & L & H). exists r. split; auto. split; auto. split; auto.
  intros i c x y Hi Hc Hx Hy. unfold mask_elems in Hc. rewrite nth_error_map in Hc. destruct (nth_error (elems X m) i) as [l|] eqn:El; [|discriminate].
  inversion Hc; subst c. destruct (H i l x y Hi El Hx Hy) as (z & Ez & ->). inversion Ez. destruct (l =? 0)%Z; reflexivity.
Qed.
Print Assumptions C21_x86_blend.
Example C21_case : exists r, x_blend i32x6 [[1; 0; 0; 4]; [0; 2 ^ 31; 1; 0]]%Z va vb = Ok r /\ elems i32x6 r = [1; 20; 30; 4; 50; 6]%Z.
Proof. eexists. split; reflexivity. Qed.

(** *** C22 *)
(** element_aligned (and every conversion): exactly the N elements, in bounds iff they are. *)
Theorem C22_x86_element_aligned : forall X mem p d,
  xty_ok X -> shaped X d -> words (xw X) mem ->
  (p + xN X <= length mem -> exists d', x_copy_from X Ok false mem p d = Ok d' /\ shaped X d' /\ elems X d' = firstn (xN X) (skipn p mem)) /\
  (length mem < p + xN X -> x_copy_from X Ok false mem p d = UB) /\
  (p + xN X <= length mem -> exists mem', x_copy_to X Ok false d mem p = Ok mem' /\ same_outside p (xN X) mem mem' /\
     (forall i, i < xN X -> nth_error mem' (p + i) = nth_error (elems X d) i) /\
     forall d0, shaped X d0 -> exists d', x_copy_from X Ok false mem' p d0 = Ok d' /\ elems X d' = elems X d).
Proof.
  intros X mem p d HX Hd Hw. pose proof (elems_length HX Hd) as Ld.
  assert (RD : forall m q d1, shaped X d1 -> words (xw X) m -> match x_copy_from X Ok false m q d1 with Ok d' => shaped X d' /\ copy_from Ok (xN X) m q (repeat 0%Z (xN X)) = Ok (elems X d') | UB => copy_from Ok (xN X) m q (repeat 0%Z (xN X)) = UB end).
  { intros m q d1 Sd Wm. apply copy_from_elem; auto; [apply repeat_length|]. intros x v Hx Hv. inversion Hv; subst. eapply words_In; eauto. }
  split; [|split].
  - intros Hb. specialize (RD mem p d Hd Hw). rewrite copy_from_id in RD by (auto using repeat_length).
    destruct (x_copy_from X Ok false mem p d) as [d'|]; [|discriminate]. destruct RD as [S E]. inversion E. exists d'. repeat split; auto; apply S.
  - intros Hb. specialize (RD mem p d Hd Hw). rewrite copy_from_oob in RD by (auto using repeat_length; destruct HX as (_ & _ & ? & _); lia).
    destruct (x_copy_from X Ok false mem p d) as [d'|]; auto. destruct RD; discriminate.
  - intros Hb. rewrite copy_to_elem by auto. destruct (copy_to_spec (xN X) (elems X d) mem p Ld Hb) as (mem' & E & O & H). exists mem'. split; auto. split; auto. split; auto.
    intros d0 Sd0. specialize (RD mem' p d0 Sd0). rewrite copy_from_id in RD by (auto using repeat_length; destruct O; lia).
    destruct (x_copy_from X Ok false mem' p d0) as [d'|].
    + destruct RD as [S E1]; [eapply copy_to_words; [|exact Hw|exact E]; apply elems_words; auto|]. inversion E1 as [E2]. exists d'. split; auto.
      rewrite <- E2. apply nth_ext_list; [rewrite firstn_length, skipn_length; destruct O; lia|].
      intros i Hi. rewrite firstn_length, skipn_length in Hi. assert (i < xN X) by lia. rewrite <- H by auto.
      rewrite <- (firstn_skipn p mem') at 2. rewrite nth_error_app2 by (rewrite firstn_length; destruct O; lia).
      rewrite firstn_length. replace (p + i - Nat.min p (length mem')) with i by (destruct O; lia).
      rewrite <- (firstn_skipn (xN X) (skipn p mem')) at 2. rewrite nth_error_app1; auto. rewrite firstn_length, skipn_length. lia.
    + assert (words (xw X) mem') as Wm by (eapply copy_to_words; [|exact Hw|exact E]; apply elems_words; auto). specialize (RD Wm). discriminate.
Qed.
Print Assumptions C22_x86_element_aligned.
Example C22_case : exists d', x_copy_from i32x6 Ok false [9; 1; 2; 3; 4; 5; 6]%Z 1 va = Ok d' /\ elems i32x6 d' = [1; 2; 3; 4; 5; 6]%Z.
Proof. eexists. split; reflexivity. Qed.
(** vector_aligned / overaligned: whole registers.  Exactly the N elements when N is a multiple of the lane count ... *)
Theorem C22_x86_vector_aligned_partial : forall X mem p d,
  xty_ok X -> xN X mod ext X = 0 -> shaped X d -> words (xw X) mem -> p + xN X <= length mem ->
  (exists d', x_copy_from X Ok true mem p d = Ok d' /\ shaped X d' /\ elems X d' = firstn (xN X) (skipn p mem)) /\
  x_copy_to X Ok true d mem p = Ok (firstn p mem ++ elems X d ++ skipn (p + xN X) mem).
Proof.
  intros X mem p d HX Hf Hd Hw Hb. pose proof (proj2 (M_full HX) Hf) as M. split.
  - destruct (@copy_from_vec X HX mem p d Hd Hw) as (d' & E & S & C); [rewrite M; auto|]. exists d'. split; auto. split; auto.
    rewrite (elems_full HX Hf S), C, M. reflexivity.
  - rewrite copy_to_vec by (auto; rewrite M; auto). rewrite M, (elems_full HX Hf Hd). reflexivity.
Qed.
Print Assumptions C22_x86_vector_aligned_partial.
(** ... otherwise they touch ceil(N / lanes) * lanes elements: a buffer of exactly N elements is overrun. *)
Theorem C22_x86_vector_aligned_refuted : forall X mem p d,
  xty_ok X -> xN X mod ext X <> 0 -> length mem = p + xN X ->
  x_copy_from X Ok true mem p d = UB /\ x_copy_to X Ok true d mem p = UB.
Proof.
  intros X mem p d HX Hf Hl. assert (xN X < dsz X * ext X).
  { pose proof (N_le_M HX). destruct (Nat.eq_dec (xN X) (dsz X * ext X)) as [E|]; [|lia]. exfalso. apply Hf. rewrite E. apply Nat.mod_mul.
    pose proof (e_pos HX). lia. }
  split; [apply copy_from_vec_ub|apply copy_to_vec_ub]; auto; lia.
Qed.
Print Assumptions C22_x86_vector_aligned_refuted.

(** *** C23 *)
(** Structured programs (sequence, if/while on any_of) over vector and mask registers, memory and output: started with
    the same elements, whenever the generic backend runs the program to a state, the x86 backend runs it to a state with
    the same elements, memory and output -- whatever the padding lanes and the indeterminate storage [junk] hold.
    [supported_cmd] excludes the operations with the defects listed in DESIGN.md. *)
Theorem C23_x86_refines_generic : forall X F junk c xs gs gs',
  xty_ok X -> fops_ok X F -> supported_cmd X c -> shaped X junk -> same_state X xs gs ->
  exec (g_step X F) (g_test X) c gs gs' ->
  exists xs', exec (x_step X F junk) (x_test X) c xs xs' /\ same_state X xs' gs'.
Proof. intros X F junk c xs gs gs' HX HF. exact (@exec_sim X HX F HF junk c xs gs gs'). Qed.
Print Assumptions C23_x86_refines_generic.
(** The x86 machine is deterministic, so this is the only outcome. *)
Theorem C23_x86_deterministic : forall X F junk c xs x1 x2,
  exec (x_step X F junk) (x_test X) c xs x1 -> exec (x_step X F junk) (x_test X) c xs x2 -> x1 = x2.
Proof.
  intros X F junk c xs x1 x2 H. revert x2. induction H as [i s s' H|s|a b s s1 s2 H1 IH1 H2 IH2|m a b s s' k Ht H IH|m a s Ht|m a s s1 s2 Ht H1 IH1 H2 IH2]; intros x2 E.
  - inversion E; congruence.
  - inversion E; auto.
  - inversion E as [| |? ? ? t1 ? P Q| | |]; subst. apply IH2. rewrite (IH1 _ P). exact Q.
  - inversion E as [| | |? ? ? ? ? k' P Q| |]; subst. apply IH. replace k with k' by congruence. exact Q.
  - inversion E; subst; auto; congruence.
  - inversion E as [| | | | |? ? ? t1 ? P Q R]; subst; [congruence|]. apply IH2. rewrite (IH1 _ Q). exact R.
Qed.
Print Assumptions C23_x86_deterministic.
(** A loop: count the elements equal to 4 and clear them with blend. *)
Definition prog : cmd :=
  CSeq (CDo (IBroadcast 1 4)) (CSeq (CDo (IBroadcast 2 0)) (CSeq (CDo (ICmp CEq 0 0 1))
    (CWhile 0 (CSeq (CDo (IRed RCount 0)) (CSeq (CDo (IBlend 0 0 2 0)) (CDo (ICmp CEq 0 0 1))))))).
Definition xs0 : xstate := {| vr := [va; va; va]; mr := [ma]; mem := []; out := [] |}.
Definition gs0 : gstate := {| vr := [[1; 2; 3; 4; 5; 6]; [1; 2; 3; 4; 5; 6]; [1; 2; 3; 4; 5; 6]]%Z; mr := [[true; false; false; true; false; true]]; mem := []; out := [] |}.
Example C23_case : supported_cmd i32x6 prog /\ same_state i32x6 xs0 gs0 /\
  exists gs', exec (g_step i32x6 noF) (g_test i32x6) prog gs0 gs' /\ out gs' = [1]%Z /\ nth_error (vr gs') 0 = Some [1; 2; 3; 0; 5; 6]%Z.
Proof.
  split; [|split].
  - cbn. unfold tails_safe, word. cbn. intuition lia.
  - assert (V : same_vec i32x6 va [1; 2; 3; 4; 5; 6]%Z) by (split; [exact va_ok|reflexivity]). unfold same_state. cbn [vr mr mem out xs0 gs0].
    split; [constructor; [exact V|constructor; [exact V|constructor; [exact V|constructor]]]|]. split; [constructor; [exact ma_ok|constructor]|].
    split; [reflexivity|split; [constructor|reflexivity]].
  - eexists. split; [|split].
    + unfold prog. eapply exec_seq; [constructor; reflexivity|]. eapply exec_seq; [constructor; reflexivity|]. eapply exec_seq; [constructor; reflexivity|].
      eapply exec_loop; [reflexivity| |]; [eapply exec_seq; [constructor; reflexivity|]; eapply exec_seq; constructor; reflexivity|]. apply exec_done. reflexivity.
    + reflexivity.
    + reflexivity.
Qed.

(** *** C25 *)
Theorem C25_x86_vector_references : forall X h x,
  xty_ok X -> shaped X x -> (forall i v, In (i, v) h -> i < xN X /\ word (xw X) v) ->
  exists x', simd_refs X h x = Ok x' /\ shaped X x' /\ elems X x' = val_refs h (elems X x).
Proof. intros X h x HX. exact (@simd_refs_ok X HX h x). Qed.
Print Assumptions C25_x86_vector_references.
Theorem C25_x86_mask_references : forall X h m,
  xty_ok X -> shaped X m -> canonical X m -> (forall o i b, In (o, i, b) h -> i < xN X) ->
  exists m', mask_refs X h m = Ok m' /\ shaped X m' /\ canonical X m' /\ mask_elems X m' = bool_refs h (mask_elems X m).
Proof. intros X h m HX. exact (@mask_refs_canonical X HX h m). Qed.
Print Assumptions C25_x86_mask_references.
(** On any lane representation, without ^=. *)
Theorem C25_x86_mask_references_any_partial : forall X h m,
  xty_ok X -> shaped X m -> (forall o i b, In (o, i, b) h -> i < xN X /\ o <> RXor) ->
  exists m', mask_refs X h m = Ok m' /\ shaped X m' /\ mask_elems X m' = bool_refs h (mask_elems X m).
Proof. intros X h m HX. exact (@mask_refs_any X HX h m). Qed.
Print Assumptions C25_x86_mask_references_any_partial.
Theorem C25_x86_reference_reads : forall X c b,
  xty_ok X ->
  ref_read (mlane (xw X) c) = c /\ ref_compl (xw X) (mlane (xw X) c) = negb c /\
  ref_bin (xw X) ROr (mlane (xw X) c) b = c || b /\ ref_bin (xw X) RAnd (mlane (xw X) c) b = c && b /\
  ref_bin (xw X) RXor (mlane (xw X) c) b = xorb c b.
Proof. intros X c b HX. exact (@ref_reads X HX c b). Qed.
Print Assumptions C25_x86_reference_reads.
Theorem C25_x86_swap : forall X m i j,
  xty_ok X -> shaped X m -> i < xN X -> j < xN X ->
  exists m' vi vj, mask_swap X m i j = Ok m' /\ shaped X m' /\ nth_error (elems X m) i = Some vi /\ nth_error (elems X m) j = Some vj /\
    elems X m' = upd (upd (elems X m) i (fun _ => vj)) j (fun _ => vi).
Proof. intros X m i j HX. exact (@mask_swap_ok X HX m i j). Qed.
Print Assumptions C25_x86_swap.
(** swap(bool &, m[i]): the bool receives the old element, the element the old bool, all other elements stay. *)
Theorem C25_x86_swap_bool : forall X m i a, xty_ok X -> shaped X m -> i < xN X ->
  exists m', mask_swap_bool X m i a = Ok (m', nth i (mask_elems X m) false) /\ shaped X m' /\
    (forall b j, nth_error (elems X m) j = Some (mlane (xw X) b) -> j <> i -> nth_error (elems X m') j = Some (mlane (xw X) b)) /\
    nth_error (elems X m') i = Some (mlane (xw X) a) /\
    mask_elems X m' = upd (mask_elems X m) i (fun _ => a).
Proof.
  intros X m i a HX Hm Hi. exact (@mask_swap_bool_elems X HX m i a Hm Hi).
Qed.
Print Assumptions C25_x86_swap_bool.
Example C25_case : exists m', mask_refs i32x6 [(RXor, 1, true); (RSet, 3, false); (RAnd, 0, false)] ma = Ok m' /\
  mask_elems i32x6 m' = [false; true; false; false; false; true].
Proof. eexists. split; reflexivity. Qed.
(** A lane that is only the sign bit: m[i] is true, ~m[i] is true, m[i] ^ true is true. *)
Theorem C25_x86_noncanonical_refuted : ref_read (2 ^ 31) = true /\ ref_compl 32 (2 ^ 31) = true /\ ref_bin 32 RXor (2 ^ 31) true = true.
Proof. exact ref_noncanonical. Qed.
Print Assumptions C25_x86_noncanonical_refuted.

(** *** C45 *)
Theorem C45_x86_integer_min_max_partial : forall X F a b,
  xty_ok X -> is_int (xT X) = true -> shaped X a -> shaped X b ->
  (exists r, x_min X a b = Ok r /\ shaped X r /\ elems X r = vmap2 (std_min (xscalar (xT X) F)) (elems X a) (elems X b)) /\
  (exists r, x_max X a b = Ok r /\ shaped X r /\ elems X r = vmap2 (std_max (xscalar (xT X) F)) (elems X a) (elems X b)) /\
  (forall c, shaped X c ->
   exists r, x_clamp X a b c = Ok r /\ shaped X r /\ refines3 (xN X) (std_clamp (xscalar (xT X) F)) (elems X a) (elems X b) (elems X c) (elems X r)).
Proof.
  intros X F a b HX Hi Ha Hb. pose proof (elems_words Ha) as Wa. pose proof (elems_words Hb) as Wb. split; [|split].
  - destruct (is_map2_elems HX Ha Hb (x_min_ok HX Ha Hb)) as (r & E & S & Er). exists r. split; auto. split; auto. rewrite Er. revert Wa Wb.
    generalize (elems X a) (elems X b). intros l. induction l as [|x l IH]; intros [|y l'] Wa Wb; cbn; auto. inversion Wa; inversion Wb; subst.
    rewrite (@min_refines X HX F) by auto. f_equal. auto.
  - destruct (is_map2_elems HX Ha Hb (x_max_ok HX Ha Hb)) as (r & E & S & Er). exists r. split; auto. split; auto. rewrite Er. revert Wa Wb.
    generalize (elems X a) (elems X b). intros l. induction l as [|x l IH]; intros [|y l'] Wa Wb; cbn; auto. inversion Wa; inversion Wb; subst.
    rewrite (@max_refines X HX F) by auto. f_equal. auto.
  - intros c Hc. destruct (x_clamp_ok HX Ha Hb Hc) as (r & E & S & L & H). exists r. split; auto. split; auto. split; auto.
    intros i x l h z Hi' Hx Hl Hh Hz. destruct (H i x l h Hi' Hx Hl Hh) as (v & Ev & En). eapply eq_trans; [exact En|]. inversion Ev. f_equal.
    change (elt (xscalar (xT X) F)) with Z in *. unfold std_clamp in Hz. cbn [sc_cmp xscalar] in Hz. rewrite Hi in Hz. unfold lane_min, lane_max. rewrite Hi. unfold i_min, i_max. unfold cxx_cmp, cmp_val in Hz.
    pose proof (el_word _ Ha Hx) as Wx. pose proof (el_word _ Hb Hl) as Wl. pose proof (el_word _ Hc Hh) as Wh.
    pose proof (fun u v => @ival_inj (ity_of (xT X)) u v (t_ok HX)) as J.
    change (iw (ity_of (xT X))) with (xw X) in J.
    repeat match goal with |- context [(?u <? ?v)%Z] => destruct (Z.ltb_spec u v) | H : context [(?u <? ?v)%Z] |- _ => destruct (Z.ltb_spec u v) end;
      inversion Hz; subst; auto; try lia; try (f_equal; apply J; auto; lia).
Qed.
Print Assumptions C45_x86_integer_min_max_partial.
(** float / double: every element of min is one of the operands and the smaller one when both are ordered and unequal;
    with a NaN, or with +-0, the second operand, whichever it is. *)
Theorem C45_x86_float_min_max_partial : forall X a b,
  xty_ok X -> is_int (xT X) = false -> shaped X a -> shaped X b ->
  (exists r, x_min X a b = Ok r /\ shaped X r /\ elems X r = vmap2 (fun x y => if flt (xw X) x y then x else y) (elems X a) (elems X b)) /\
  (exists r, x_max X a b = Ok r /\ shaped X r /\ elems X r = vmap2 (fun x y => if flt (xw X) y x then x else y) (elems X a) (elems X b)).
Proof.
  intros X a b HX Hi Ha Hb. split.
  - destruct (is_map2_elems HX Ha Hb (x_min_ok HX Ha Hb)) as (r & E & S & Er). exists r. split; auto. split; auto. rewrite Er. apply vmap2_ext. intros. unfold lane_min. rewrite Hi. reflexivity.
  - destruct (is_map2_elems HX Ha Hb (x_max_ok HX Ha Hb)) as (r & E & S & Er). exists r. split; auto. split; auto. rewrite Er. apply vmap2_ext. intros. unfold lane_max. rewrite Hi. reflexivity.
Qed.
Print Assumptions C45_x86_float_min_max_partial.
(** std::min(1, NaN) is 1 and std::max(1, NaN) is 1; std::min(+0, -0) is +0. The vector versions give NaN and -0. *)
Definition qnan : Z := (2 ^ 31 - 2 ^ 22)%Z.
Definition one32 : Z := (127 * 2 ^ 23)%Z.
Theorem C45_x86_float_refuted :
  let a := [[one32; 0; 0; 0]; [0; 0; 0; 0]]%Z in let b := [[qnan; 2 ^ 31; 0; 0]; [0; 0; 0; 0]]%Z in
  shaped f32x5 a /\ shaped f32x5 b /\
  (exists r, x_min f32x5 a b = Ok r /\ nth_error (elems f32x5 r) 0 = Some qnan /\ nth_error (elems f32x5 r) 1 = Some (2 ^ 31)%Z) /\
  std_min (xscalar (xT f32x5) noF) one32 qnan = one32 /\ std_min (xscalar (xT f32x5) noF) 0%Z (2 ^ 31)%Z = 0%Z /\
  (exists r, x_max f32x5 a b = Ok r /\ nth_error (elems f32x5 r) 0 = Some qnan) /\ std_max (xscalar (xT f32x5) noF) one32 qnan = one32.
Proof.
  cbv zeta. unfold one32, qnan. split; [shp|]. split; [shp|]. split; [eexists; split; [reflexivity|split; reflexivity]|].
  split; [reflexivity|]. split; [reflexivity|]. split; [eexists; split; reflexivity|reflexivity].
Qed.
Print Assumptions C45_x86_float_refuted.
