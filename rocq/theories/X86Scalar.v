(** The lane functions of the x86 backend against the C++ scalar operators: wherever the scalar expression is
    defined, the lane holds its value. *)
From Coq Require Import ZifyBool ZifyNat.
From Verif Require Import Base Cxx Spec Generic GenericProofs X86Vec X86 X86Lemmas X86Proofs X86Ops X86Mem X86Shift.
Set Implicit Arguments.

(** C++ float/double operators, bit patterns: the arithmetic is the hardware's ([F]), comparisons are IEEE-754,
    unary minus flips the sign bit. *)
Definition f_one (w : Z) : Z := (if w =? 32 then 127 * 2 ^ 23 else 1023 * 2 ^ 52)%Z.
Definition f_bin (w : Z) (F : fops) (o : binop) (x y : Z) : res Z :=
  match o with
  | OpAdd => Ok (f_add F w x y) | OpSub => Ok (f_sub F w x y) | OpMul => Ok (f_mul F w x y) | OpDiv => Ok (f_div F w x y)
  | _ => UB
  end.
Definition f_cmp (w : Z) (o : cmpop) (x y : Z) : bool :=
  match o with
  | CEq => feq w x y | CNe => negb (feq w x y) | CLt => flt w x y | CLe => fle w x y | CGt => flt w y x | CGe => fle w y x
  end.
(** The scalar operators of element type T. *)
Definition xscalar (T : ety) (F : fops) : scalar := {|
  elt := Z; sc_zero := 0%Z;
  sc_bin := if is_int T then cxx_bin (ity_of T) else f_bin (ew T) F;
  sc_shift := if is_int T then cxx_shift (ity_of T) else fun _ _ _ => UB;
  sc_neg := if is_int T then cxx_neg (ity_of T) else fun x => Ok (Z.lxor x (2 ^ (ew T - 1)));
  sc_not := if is_int T then cxx_not (ity_of T) else fun _ => UB;
  sc_lnot := if is_int T then cxx_lnot (ity_of T) else fun x => feq (ew T) x 0;
  sc_one := if is_int T then 1%Z else f_one (ew T);
  sc_cmp := if is_int T then cxx_cmp (ity_of T) else f_cmp (ew T) |}.

Open Scope Z_scope.
Lemma ival_mod t x : ity_ok t -> exists k, ival t x = x + k * 2 ^ iw t.
Proof. intros Ht. pose proof (ity_pos t Ht). unfold ival. destruct (isg t); [apply sgn_mod; lia|exists 0; lia]. Qed.
Lemma arith_mod p v r : ity_ok p -> arith p v = Ok r -> exists k, r = v + k * 2 ^ iw p.
Proof.
  intros Hp H. unfold arith in H. destruct (isg p).
  - destruct (fits p v); inversion H; subst. exists 0. lia.
  - inversion H; subst. unfold wrap. pose proof (ity_pos p Hp). pose proof (pow2_pos (iw p) ltac:(lia)).
    exists (- (v / 2 ^ iw p)). pose proof (Z.div_mod v (2 ^ iw p)). lia.
Qed.
Lemma promote_mult t : ity_ok t -> exists j, 2 ^ iw (promote t) = j * 2 ^ iw t.
Proof.
  intros Ht. assert (iw t <= iw (promote t)) by (unfold promote; destruct (Z.ltb_spec (iw t) 32); simpl; lia).
  pose proof (ity_pos t Ht). exists (2 ^ (iw (promote t) - iw t)). rewrite <- Z.pow_add_r by lia. f_equal. lia.
Qed.
(** + - * : the pattern is the exact result modulo 2^w *)
Lemma cxx_bin_wrap t o x y r : ity_ok t -> o = OpAdd \/ o = OpSub \/ o = OpMul ->
  cxx_bin t o x y = Ok r -> r = exact_val o x y mod 2 ^ iw t.
Proof.
  intros Ht Ho H. unfold cxx_bin in H. apply bind_ok in H. destruct H as (v & Hv & Hr). inversion Hr; subst r. clear Hr.
  destruct (ival_mod x Ht) as [k Hk]. destruct (ival_mod y Ht) as [l Hl]. destruct (promote_mult Ht) as [j Hj].
  pose proof (ity_pos t Ht). pose proof (pow2_pos (iw t) ltac:(lia)) as HP.
  assert (E : exists m, v = exact_val o x y + m * 2 ^ iw t).
  { destruct Ho as [->|[->| ->]]; cbn [cxx_val exact_val] in *; apply arith_mod in Hv; auto using promote_ok; destruct Hv as [q ->]; rewrite Hk, Hl, Hj.
    - exists (k + l + q * j). ring.
    - exists (k - l + q * j). ring.
    - exists (x * l + k * y + k * l * 2 ^ iw t + q * j). ring. }
  destruct E as [m ->]. unfold of_val, wrap. apply Z.mod_add. lia.
Qed.
Lemma cxx_neg_wrap t x r : ity_ok t -> cxx_neg t x = Ok r -> r = (- x) mod 2 ^ iw t.
Proof.
  intros Ht H. unfold cxx_neg in H. apply bind_ok in H. destruct H as (v & Hv & Hr). inversion Hr; subst r. clear Hr.
  destruct (ival_mod x Ht) as [k Hk]. destruct (promote_mult Ht) as [j Hj].
  pose proof (ity_pos t Ht). pose proof (pow2_pos (iw t) ltac:(lia)) as HP. apply arith_mod in Hv; auto using promote_ok.
  destruct Hv as [q ->]. rewrite Hk, Hj. unfold of_val, wrap.
  replace (- (x + k * 2 ^ iw t) + q * (j * 2 ^ iw t)) with (- x + (- k + q * j) * 2 ^ iw t) by ring. apply Z.mod_add. lia.
Qed.
(** shifts by an element *)
Lemma cxx_bin_shl t x y r : ity_ok t -> word (iw t) x -> 0 <= ival t y < iw t ->
  cxx_bin t OpShl x y = Ok r -> r = shl_bits (iw t) (ival t y) x.
Proof.
  intros Ht Hx Hy H. change (cxx_shift t true x (ival t y) = Ok r) in H. rewrite promote_word_shl in H by auto. congruence.
Qed.
Lemma cxx_bin_shr t x y r : ity_ok t -> word (iw t) x -> 0 <= ival t y < iw t ->
  cxx_bin t OpShr x y = Ok r -> r = if isg t then ashr_bits (iw t) (ival t y) x else lshr_bits (ival t y) x.
Proof.
  intros Ht Hx Hy H. change (cxx_shift t false x (ival t y) = Ok r) in H. rewrite cxx_shift_right in H by auto. congruence.
Qed.
Lemma ival_inj t x y : ity_ok t -> word (iw t) x -> word (iw t) y -> ival t x = ival t y -> x = y.
Proof. intros Ht Hx Hy E. rewrite <- (of_val_ival t x), <- (of_val_ival t y) by auto. congruence. Qed.
Lemma ival_eqb t x y : ity_ok t -> word (iw t) x -> word (iw t) y -> (ival t x =? ival t y) = (x =? y).
Proof.
  intros Ht Hx Hy. destruct (Z.eqb_spec x y) as [->|Hne]; [apply Z.eqb_refl|]. apply Z.eqb_neq. intros E. apply Hne. eapply ival_inj; eauto.
Qed.
Close Scope Z_scope.

Section WF.
Context (X : xty) (HX : xty_ok X) (F : fops) (HF : fops_ok X F).
Let w := xw X.
Let T := xT X.
Let sc := xscalar T F.
Lemma t_ok : ity_ok (ity_of T). Proof. apply ity_of_ok. apply HX. Qed.
Lemma t_w : iw (ity_of T) = w. Proof. reflexivity. Qed.
Lemma add_refines x y z : sc_bin sc OpAdd x y = Ok z -> z = lane_add X F x y.
Proof.
  unfold sc, xscalar, sc_bin, lane_add. fold T. destruct (is_int T).
  - intros H. apply cxx_bin_wrap in H; auto using t_ok.
  - cbn. intros H; inversion H; auto.
Qed.
Lemma sub_refines x y z : sc_bin sc OpSub x y = Ok z -> z = lane_sub X F x y.
Proof.
  unfold sc, xscalar, sc_bin, lane_sub. fold T. destruct (is_int T).
  - intros H. apply cxx_bin_wrap in H; auto using t_ok.
  - cbn. intros H; inversion H; auto.
Qed.
Lemma mul_refines x y z : sc_bin sc OpMul x y = Ok z -> z = lane_mul X F x y.
Proof.
  unfold sc, xscalar, sc_bin, lane_mul. fold T. destruct (is_int T).
  - intros H. apply cxx_bin_wrap in H; auto using t_ok.
  - cbn. intros H; inversion H; auto.
Qed.
Lemma divf_refines x y z : is_int T = false -> sc_bin sc OpDiv x y = Ok z -> z = f_div F w x y.
Proof. unfold sc, xscalar, sc_bin. intros ->. cbn. intros H; inversion H; auto. Qed.
Lemma neg_refines x z : sc_neg sc x = Ok z -> z = lane_neg X x.
Proof.
  unfold sc, xscalar, sc_neg, lane_neg. fold T. destruct (is_int T).
  - intros H. apply cxx_neg_wrap in H; auto using t_ok.
  - intros H; inversion H; auto.
Qed.
Lemma and_refines x y z : word w x -> word w y -> sc_bin sc OpAnd x y = Ok z -> z = Z.land x y.
Proof.
  intros Hx Hy. unfold sc, xscalar, sc_bin. destruct (is_int T); [|discriminate].
  destruct (cxx_bin_bitwise (ity_of T) x y t_ok Hx Hy) as (-> & _). congruence.
Qed.
Lemma or_refines x y z : word w x -> word w y -> sc_bin sc OpOr x y = Ok z -> z = Z.lor x y.
Proof.
  intros Hx Hy. unfold sc, xscalar, sc_bin. destruct (is_int T); [|discriminate].
  destruct (cxx_bin_bitwise (ity_of T) x y t_ok Hx Hy) as (_ & -> & _). congruence.
Qed.
Lemma xor_refines x y z : word w x -> word w y -> sc_bin sc OpXor x y = Ok z -> z = Z.lxor x y.
Proof.
  intros Hx Hy. unfold sc, xscalar, sc_bin. destruct (is_int T); [|discriminate].
  destruct (cxx_bin_bitwise (ity_of T) x y t_ok Hx Hy) as (_ & _ & -> & _). congruence.
Qed.
(** comparisons *)
Lemma eq_refines x y : word w x -> word w y -> lane_eq X x y = sc_cmp sc CEq x y.
Proof.
  intros Hx Hy. unfold lane_eq, sc, xscalar, sc_cmp, is_int. fold T. destruct (ek T) eqn:Ek; [|reflexivity].
  unfold cxx_cmp, cmp_val. symmetry. apply ival_eqb; auto using t_ok.
Qed.
Lemma ne_refines x y : word w x -> word w y -> negb (lane_eq X x y) = sc_cmp sc CNe x y.
Proof.
  intros Hx Hy. rewrite eq_refines by auto. unfold sc, xscalar, sc_cmp. destruct (is_int T); reflexivity.
Qed.
Definition signed_or_float : Prop := ek T = KInt true \/ ek T = KFloat.
Lemma gt_refines x y : signed_or_float -> lane_gt X x y = sc_cmp sc CGt x y.
Proof.
  intros HS. unfold lane_gt, sc, xscalar, sc_cmp, is_int. fold T. destruct HS as [E|E]; rewrite E; [|reflexivity].
  unfold cxx_cmp, cmp_val, ival, ity_of. simpl. rewrite E. fold T. rewrite Z.gtb_ltb. reflexivity.
Qed.
Lemma lnot_refines x : word w x -> lane_eq X x 0 = sc_lnot sc x.
Proof.
  intros Hx. unfold lane_eq, sc, xscalar, sc_lnot, is_int. fold T. destruct (ek T) eqn:Ek; [|reflexivity].
  unfold cxx_lnot. assert (E0 : ival (ity_of T) 0 = 0%Z).
  { unfold ival. destruct (isg (ity_of T)); auto. unfold sgn. pose proof t_ok as Ht. pose proof (ity_pos _ Ht).
    pose proof (pow2_pos (iw (ity_of T) - 1) ltac:(lia)). replace (0 <? 2 ^ (iw (ity_of T) - 1))%Z with true by lia. auto. }
  rewrite <- E0 at 2. symmetry. apply ival_eqb; auto using t_ok. apply word_0. pose proof (ity_pos _ t_ok). lia.
Qed.
(** min / max of integers: equal values are equal patterns, so the operand order does not matter *)
Lemma min_refines x y : is_int T = true -> word w x -> word w y -> lane_min X x y = std_min sc x y.
Proof.
  intros Hi Hx Hy. unfold lane_min, std_min, sc, xscalar, sc_cmp. fold T. rewrite Hi. unfold i_min, cxx_cmp, cmp_val.
  pose proof (ival_inj t_ok Hx Hy). destruct (Z.ltb_spec (ival (ity_of T) x) (ival (ity_of T) y)), (Z.ltb_spec (ival (ity_of T) y) (ival (ity_of T) x)); auto; [lia|]. symmetry. apply H. lia.
Qed.
Lemma max_refines x y : is_int T = true -> word w x -> word w y -> lane_max X x y = std_max sc x y.
Proof.
  intros Hi Hx Hy. unfold lane_max, std_max, sc, xscalar, sc_cmp. fold T. rewrite Hi. unfold i_max, cxx_cmp, cmp_val.
  pose proof (ival_inj t_ok Hx Hy). destruct (Z.ltb_spec (ival (ity_of T) x) (ival (ity_of T) y)), (Z.ltb_spec (ival (ity_of T) y) (ival (ity_of T) x)); auto; [lia|]. symmetry. apply H. lia.
Qed.
End WF.

