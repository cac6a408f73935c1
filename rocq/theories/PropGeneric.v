(** Properties of the generic backend (C01-C12). Statements only use the model's entry points and [Spec]. *)
From Verif Require Import Base Cxx Spec Generic GenericProofs.

(** *** C01 *)
Theorem C01_generic_binary_elementwise : forall (T : scalar) (o : binop) (N : nat) (a b : list (elt T)),
  length a = N -> length b = N ->
  elementwise2 N (sc_bin T o) a b (simd_binary T o N a b).
Proof. exact simd_binary_elementwise. Qed.
Print Assumptions C01_generic_binary_elementwise.
Example C01_case : elementwise2 3 (cxx_bin int32 OpMul) [2; 3; 4]%Z [5; 6; 7]%Z (Ok [10; 18; 28]%Z) /\
  simd_binary (int_scalar int32) OpMul 3 [2; 3; 4]%Z [5; 6; 7]%Z = Ok [10; 18; 28]%Z.
Proof. split; [exact (simd_binary_elementwise (int_scalar int32) OpMul 3 [2; 3; 4]%Z [5; 6; 7]%Z eq_refl eq_refl) | reflexivity]. Qed.

Theorem C01_generic_scalar_forms : forall (T : scalar) (o : binop) (N : nat) (a : list (elt T)) (b : elt T),
  length a = N ->
  elementwise1 N (fun x => sc_bin T o x b) a (simd_binary_s T o N a b) /\
  elementwise1 N (fun x => sc_bin T o x b) a (simd_assign_s T o N a b).
Proof. intros T o N a b H; exact (conj (simd_binary_s_elementwise T o N a b H) (simd_binary_s_elementwise T o N a b H)). Qed.
Print Assumptions C01_generic_scalar_forms.

Theorem C01_generic_shift_by_scalar : forall (T : scalar) (left : bool) (N : nat) (a : list (elt T)) (n : Z),
  length a = N ->
  elementwise1 N (fun x => sc_shift T left x n) a (simd_shift_s T left N a n) /\
  elementwise1 N (fun x => sc_shift T left x n) a (simd_shift_assign_s T left N a n).
Proof. intros T l N a n H; exact (conj (simd_shift_s_elementwise T l N a n H) (simd_shift_s_elementwise T l N a n H)). Qed.
Print Assumptions C01_generic_shift_by_scalar.

Theorem C01_generic_unary : forall (T : scalar) (N : nat) (x : list (elt T)),
  length x = N ->
  elementwise1 N (sc_neg T) x (simd_neg T N x) /\
  elementwise1 N (sc_not T) x (simd_not T N x) /\
  simd_plus T x = Ok x /\
  elementwise1 N (fun v => sc_bin T OpAdd v (sc_one T)) x (simd_preinc T N x) /\
  elementwise1 N (fun v => sc_bin T OpSub v (sc_one T)) x (simd_predec T N x) /\
  (forall x', simd_preinc T N x = Ok x' -> simd_postinc T N x = Ok (x, x')) /\
  (forall x', simd_predec T N x = Ok x' -> simd_postdec T N x = Ok (x, x')).
Proof. exact simd_unary_all. Qed.
Print Assumptions C01_generic_unary.

(** Compound assignment: every operator except the two vector shifts. *)
Theorem C01_generic_assign_partial : forall (T : scalar) (o : binop) (N : nat) (a b : list (elt T)),
  o <> OpShl -> o <> OpShr -> length a = N -> length b = N ->
  elementwise2 N (sc_bin T o) a b (simd_assign T o N a b).
Proof. exact simd_assign_elementwise. Qed.
Print Assumptions C01_generic_assign_partial.

Theorem C01_generic_shift_assign_refuted :
  (exists a b r, simd_assign (int_scalar int32) OpShl 2 a b = Ok r /\ ~ elementwise2 2 (sc_bin (int_scalar int32) OpShl) a b (Ok r)) /\
  (exists a b r, simd_assign (int_scalar int32) OpShr 2 a b = Ok r /\ ~ elementwise2 2 (sc_bin (int_scalar int32) OpShr) a b (Ok r)).
Proof. exact assign_shift_wrong. Qed.
Print Assumptions C01_generic_shift_assign_refuted.
Theorem C01_generic_shift_assign_swapped : forall (T : scalar) (N : nat) (a b : list (elt T)),
  length a = N -> length b = N ->
  elementwise2 N (sc_bin T OpShr) a b (simd_assign T OpShl N a b) /\
  elementwise2 N (sc_bin T OpShl) a b (simd_assign T OpShr N a b).
Proof. exact assign_shift_swapped. Qed.
Print Assumptions C01_generic_shift_assign_swapped.

(** What the scalar operators mean for integers: exact when representable, modular for wide unsigned,
    bitwise on patterns. *)
Theorem C01_integer_scalar_exact : forall (t : ity) (o : binop) (x y : Z),
  ity_ok t -> word (iw t) x -> word (iw t) y ->
  (imin t <= exact_val o (ival t x) (ival t y) <= imax t)%Z ->
  (o = OpDiv -> ival t y <> 0%Z) ->
  (o = OpMod -> ival t y <> 0%Z /\ (imin t <= Z.quot (ival t x) (ival t y) <= imax t)%Z) ->
  (o = OpShl \/ o = OpShr -> (0 <= ival t y < iw t)%Z) ->
  exists r, cxx_bin t o x y = Ok r /\ word (iw t) r /\ ival t r = exact_val o (ival t x) (ival t y).
Proof. exact cxx_bin_exact. Qed.
Print Assumptions C01_integer_scalar_exact.
Example C01_scalar_case : (cxx_bin int8 OpMul 246 12 = Ok 136 /\ ival int8 246 = -10 /\ ival int8 136 = -120)%Z.
Proof. repeat split; reflexivity. Qed.

Theorem C01_integer_scalar_modular : forall (t : ity) (o : binop) (x y : Z),
  ity_ok t -> isg t = false -> (32 <= iw t)%Z -> o = OpAdd \/ o = OpSub \/ o = OpMul ->
  cxx_bin t o x y = Ok (exact_val o x y mod 2 ^ iw t)%Z.
Proof. exact cxx_bin_modular. Qed.
Print Assumptions C01_integer_scalar_modular.
Theorem C01_integer_scalar_bitwise : forall (t : ity) (x y : Z),
  ity_ok t -> word (iw t) x -> word (iw t) y ->
  cxx_bin t OpAnd x y = Ok (Z.land x y) /\ cxx_bin t OpOr x y = Ok (Z.lor x y) /\
  cxx_bin t OpXor x y = Ok (Z.lxor x y) /\ cxx_not t x = Ok (2 ^ iw t - 1 - x)%Z.
Proof. exact cxx_bin_bitwise. Qed.
Print Assumptions C01_integer_scalar_bitwise.

(** *** C02 *)
Theorem C02_generic_compare : forall (T : scalar) (o : cmpop) (N : nat) (a b : list (elt T)),
  length a = N -> length b = N ->
  elementwise2 N (fun x y => Ok (sc_cmp T o x y)) a b (simd_cmp T o N a b).
Proof. exact simd_cmp_elementwise. Qed.
Print Assumptions C02_generic_compare.
Theorem C02_generic_not : forall (T : scalar) (N : nat) (a : list (elt T)),
  length a = N -> elementwise1 N (fun x => Ok (sc_lnot T x)) a (simd_lnot T N a).
Proof. exact simd_lnot_elementwise. Qed.
Print Assumptions C02_generic_not.
Theorem C02_integer_compare_meaning : forall (t : ity) (x y : Z),
  (cxx_cmp t CEq x y = true <-> ival t x = ival t y) /\ (cxx_cmp t CNe x y = true <-> ival t x <> ival t y) /\
  (cxx_cmp t CLt x y = true <-> (ival t x < ival t y)%Z) /\ (cxx_cmp t CLe x y = true <-> (ival t x <= ival t y)%Z) /\
  (cxx_cmp t CGt x y = true <-> (ival t x > ival t y)%Z) /\ (cxx_cmp t CGe x y = true <-> (ival t x >= ival t y)%Z) /\
  (cxx_lnot t x = true <-> ival t x = 0%Z).
Proof. exact cxx_cmp_meaning. Qed.
Print Assumptions C02_integer_compare_meaning.
Example C02_case : simd_cmp (int_scalar int8) CLt 3 [255; 1; 128]%Z [0; 1; 127]%Z = Ok [true; false; true].
Proof. reflexivity. Qed.

(** *** C03 *)
Theorem C03_generic_mask_binary : forall (N : nat) (a b : list bool),
  length a = N -> length b = N ->
  elementwise2 N (fun x y => Ok (andb x y)) a b (mask_binary MAnd N a b) /\
  elementwise2 N (fun x y => Ok (orb x y)) a b (mask_binary MOr N a b) /\
  elementwise2 N (fun x y => Ok (xorb x y)) a b (mask_binary MXor N a b) /\
  elementwise2 N (fun x y => Ok (andb x y)) a b (mask_binary MLAnd N a b) /\
  elementwise2 N (fun x y => Ok (orb x y)) a b (mask_binary MLOr N a b) /\
  elementwise2 N (fun x y => Ok (negb (xorb x y))) a b (mask_binary MEq N a b) /\
  elementwise2 N (fun x y => Ok (xorb x y)) a b (mask_binary MNe N a b).
Proof. exact mask_binary_all. Qed.
Print Assumptions C03_generic_mask_binary.
Theorem C03_generic_mask_assign : forall (N : nat) (a b : list bool),
  length a = N -> length b = N ->
  elementwise2 N (fun x y => Ok (andb x y)) a b (mask_assign MAndA N a b) /\
  elementwise2 N (fun x y => Ok (orb x y)) a b (mask_assign MOrA N a b) /\
  elementwise2 N (fun x y => Ok (xorb x y)) a b (mask_assign MXorA N a b).
Proof. exact mask_assign_elementwise. Qed.
Print Assumptions C03_generic_mask_assign.
Theorem C03_generic_mask_not : forall (N : nat) (a : list bool),
  length a = N -> elementwise1 N (fun x => Ok (negb x)) a (mask_unary MNot N a).
Proof. exact mask_not_elementwise. Qed.
Print Assumptions C03_generic_mask_not.
Theorem C03_generic_mask_bitnot_refuted :
  exists m r, length m = 2 /\ mask_unary MBitNot 2 m = Ok r /\ mask_unary MNeg 2 m = Ok r /\
    ~ elementwise1 2 (fun x => Ok (negb x)) m (Ok r).
Proof. exact mask_bitnot_wrong. Qed.
Print Assumptions C03_generic_mask_bitnot_refuted.
Theorem C03_generic_mask_bitnot_all_true : forall (N : nat) (a : list bool),
  length a = N -> mask_unary MBitNot N a = Ok (repeat true N) /\ mask_unary MNeg N a = Ok (repeat true N).
Proof. exact mask_bitnot_all_true. Qed.
Print Assumptions C03_generic_mask_bitnot_all_true.

(** *** C04 *)
Theorem C04_generic_all_any_none_some : forall (N : nat) (m : list bool), length m = N ->
  (exists r, all_of N m = Ok r /\ (r = true <-> forall i, i < N -> nth_error m i = Some true)) /\
  (exists r, any_of N m = Ok r /\ (r = true <-> exists i, i < N /\ nth_error m i = Some true)) /\
  (exists r, none_of N m = Ok r /\ (r = true <-> forall i, i < N -> nth_error m i = Some false)) /\
  (exists r, some_of N m = Ok r /\
    (r = true <-> (exists i, i < N /\ nth_error m i = Some true) /\ (exists i, i < N /\ nth_error m i = Some false))).
Proof. intros N m H; exact (conj (all_of_spec N m H) (conj (any_of_spec N m H) (conj (none_of_spec N m H) (some_of_spec N m H)))). Qed.
Print Assumptions C04_generic_all_any_none_some.
Theorem C04_generic_count : forall (N : nat) (m : list bool), length m = N -> reduce_count N m = Ok (count_true m).
Proof. exact reduce_count_spec. Qed.
Print Assumptions C04_generic_count.
Theorem C04_generic_first_last_index : forall (N : nat) (m : list bool), length m = N ->
  (forall i, first_true m i -> reduce_min_index N m = Ok i) /\
  (forall i, last_true m i -> reduce_max_index N m = Ok i).
Proof. intros N m H; exact (conj (proj1 (reduce_min_index_spec N m H)) (proj1 (reduce_max_index_spec N m H))). Qed.
Print Assumptions C04_generic_first_last_index.
Example C04_case : first_true [false; true; true; false] 1 /\ last_true [false; true; true; false] 2 /\
  reduce_min_index 4 [false; true; true; false] = Ok 1 /\ reduce_max_index 4 [false; true; true; false] = Ok 2.
Proof.
  repeat split; try reflexivity.
  - intros [|j] Hj; [reflexivity|lia].
  - intros j H1 H2. simpl in H2. assert (j = 3) as -> by lia. reflexivity.
Qed.
Theorem C04_scalar_bool_versions : forall b : bool,
  all_of_s b = b /\ any_of_s b = b /\ none_of_s b = negb b /\ some_of_s b = false /\
  reduce_count_s b = count_true [b] /\ (first_true [b] 0 -> reduce_min_index_s b = 0) /\ (last_true [b] 0 -> reduce_max_index_s b = 0).
Proof. exact scalar_bool_versions. Qed.
Print Assumptions C04_scalar_bool_versions.

(** *** C05: full claim false from four elements on; it holds up to three. *)
Theorem C05_generic_reduce_partial : forall (A : Type) (zero : A) (op : A -> A -> res A) (x : list A) (v : A),
  1 <= length x <= 3 -> reduce zero (length x) op x = Ok v -> gsum op x v.
Proof. exact @reduce_small. Qed.
Print Assumptions C05_generic_reduce_partial.
Theorem C05_generic_reduce_defined_partial : forall (A : Type) (zero : A) (op : A -> A -> res A) (x : list A),
  1 <= length x <= 3 -> (forall a b, exists c, op a b = Ok c) -> exists v, reduce zero (length x) op x = Ok v.
Proof. exact @reduce_small_defined. Qed.
Print Assumptions C05_generic_reduce_defined_partial.
Theorem C05_generic_reduce_refuted :
  exists x v, length x = 4 /\ Forall (word 32) x /\ hadd (int_scalar uint32) 4 x = Ok v /\
    ~ gsum (cxx_bin uint32 OpAdd) x v.
Proof. exact reduce_add_wrong. Qed.
Print Assumptions C05_generic_reduce_refuted.
(** No size from 4 on is safe: element 1 never contributes. *)
Theorem C05_generic_reduce_ignores_element_1 : forall (A : Type) (zero : A) (op : A -> A -> res A) (x0 x1 x1' : A) (rest : list A),
  2 <= length rest ->
  reduce zero (2 + length rest) op (x0 :: x1 :: rest) = reduce zero (2 + length rest) op (x0 :: x1' :: rest).
Proof. exact @reduce_ignores_1. Qed.
Print Assumptions C05_generic_reduce_ignores_element_1.
Example C05_case : gsum (cxx_bin int32 OpAdd) [1; 2; 3]%Z 6%Z /\ hadd (int_scalar int32) 3 [1; 2; 3]%Z = Ok 6%Z.
Proof. split; [apply (reduce_small 0%Z _ [1; 2; 3]%Z); [simpl; lia|reflexivity]|reflexivity]. Qed.

(** *** C06 *)
Theorem C06_generic_shuffle : forall (A : Type) (zero : A) (N : nat) (idx : list nat) (x : list A),
  length x = N -> idx <> [] -> (forall i, In i idx -> i < N) ->
  exists r, shuffle zero N idx x = Ok r /\ length r = length idx /\
    forall j i, nth_error idx j = Some i -> nth_error r j = nth_error x i.
Proof. exact @shuffle_spec. Qed.
Print Assumptions C06_generic_shuffle.
Example C06_case : shuffle 0 3 [2; 2; 0; 1] [10; 11; 12] = Ok [12; 12; 10; 11].
Proof. reflexivity. Qed.

(** *** C07 *)
Theorem C07_generic_blend : forall (A : Type) (zero : A) (N : nat) (m : list bool) (a b : list A),
  length m = N -> length a = N -> length b = N ->
  exists r, blend zero N m a b = Ok r /\ length r = N /\
    forall i, i < N -> (nth_error m i = Some true -> nth_error r i = nth_error a i) /\
                       (nth_error m i = Some false -> nth_error r i = nth_error b i).
Proof. exact @blend_spec. Qed.
Print Assumptions C07_generic_blend.
Example C07_case : blend 0 2 [true; false] [1; 2] [3; 4] = Ok [1; 4].
Proof. reflexivity. Qed.

(** *** C08 *)
Theorem C08_generic_load : forall (A : Type) (N : nat) (mem : list A) (p : nat) (d : list A),
  length d = N -> p + N <= length mem -> copy_from Ok N mem p d = Ok (firstn N (skipn p mem)).
Proof. exact @copy_from_id. Qed.
Print Assumptions C08_generic_load.
Theorem C08_generic_store : forall (A : Type) (N : nat) (d mem : list A) (p : nat),
  length d = N -> p + N <= length mem ->
  exists mem', copy_to Ok N d mem p = Ok mem' /\ same_outside p N mem mem' /\
    forall i, i < N -> nth_error mem' (p + i) = nth_error d i.
Proof. exact @copy_to_spec. Qed.
Print Assumptions C08_generic_store.
Theorem C08_generic_store_load : forall (A : Type) (N : nat) (d mem : list A) (p : nat) (d0 : list A),
  length d = N -> length d0 = N -> p + N <= length mem ->
  (mem' <- copy_to Ok N d mem p;; copy_from Ok N mem' p d0) = Ok d.
Proof. exact @copy_to_from. Qed.
Print Assumptions C08_generic_store_load.
Theorem C08_generic_masked_load : forall (A : Type) (N : nat) (mem : list A) (p : nat) (m : list bool) (d : list A),
  length m = N -> length d = N ->
  (forall i, i < N -> nth_error m i = Some true -> p + i < length mem) ->
  exists d', copy_from_mask Ok N mem p m d = Ok d' /\ length d' = N /\
    forall i, i < N -> (nth_error m i = Some true -> nth_error d' i = nth_error mem (p + i)) /\
                       (nth_error m i = Some false -> nth_error d' i = nth_error d i).
Proof. exact @copy_from_mask_spec. Qed.
Print Assumptions C08_generic_masked_load.
Theorem C08_generic_masked_store : forall (A : Type) (N : nat) (d mem : list A) (p : nat) (m : list bool),
  length m = N -> length d = N ->
  (forall i, i < N -> nth_error m i = Some true -> p + i < length mem) ->
  exists mem', copy_to_mask Ok N d mem p m = Ok mem' /\ same_outside p N mem mem' /\
    forall i, i < N -> (nth_error m i = Some true -> nth_error mem' (p + i) = nth_error d i) /\
                       (nth_error m i = Some false -> nth_error mem' (p + i) = nth_error mem (p + i)).
Proof. exact @copy_to_mask_spec. Qed.
Print Assumptions C08_generic_masked_store.
Example C08_case : copy_from Ok 2 [9; 8; 7; 6] 1 [0; 0] = Ok [8; 7] /\ copy_to Ok 2 [1; 2] [9; 8; 7; 6] 1 = Ok [9; 1; 2; 6]
  /\ copy_to_mask Ok 3 [1; 2; 3] [9; 8] 0 [false; true; false] = Ok [9; 2].
Proof. repeat split; reflexivity. Qed.

(** *** C09 *)
Theorem C09_generic_broadcast : forall (A : Type) (N : nat) (v : A) (d : list A),
  length d = N -> broadcast N v d = Ok (repeat v N).
Proof. exact @broadcast_spec. Qed.
Print Assumptions C09_generic_broadcast.
Theorem C09_generic_generator_order : forall (A S : Type) (N : nat) (gen : nat -> S -> res (A * S)) (d : list A) (s : S),
  length d = N -> generate N gen d s = call_gen N 0 gen s.
Proof. exact @generate_spec. Qed.
Print Assumptions C09_generic_generator_order.
Theorem C09_generic_generator_elements : forall (A : Type) (N : nat) (g : nat -> A) (d : list A) (s : unit),
  length d = N -> exists r, generate N (fun i s => Ok (g i, s)) d s = Ok (r, s) /\ length r = N /\
    forall i, i < N -> nth_error r i = Some (g i).
Proof. exact @generate_pure. Qed.
Print Assumptions C09_generic_generator_elements.
Example C09_case : generate 3 (fun i s => Ok (i * 10 + s, s + 1)) [0; 0; 0] 5 = Ok ([5; 16; 27], 8).
Proof. reflexivity. Qed.

(** *** C10 *)
Theorem C10_generic_casts : forall (A B : Type) (conv : A -> res B) (zero : B) (N : nat) (x : list A) (to : list B),
  length x = N -> length to = N ->
  elementwise1 N conv x (simd_cast conv zero N x) /\ elementwise1 N conv x (convert conv zero N x) /\
  elementwise1 N conv x (copy_cast conv zero N x to).
Proof. intros A B c z N x t H H'; exact (conj (simd_cast_elementwise c z N x H) (conj (convert_elementwise c z N x H) (copy_cast_elementwise c z N x t H H'))). Qed.
Print Assumptions C10_generic_casts.
Theorem C10_generic_widen_narrow : forall (t u : ity) (N : nat) (x : list Z),
  ity_ok t -> ity_ok u -> (iw t <= iw u)%Z -> length x = N -> Forall (word (iw t)) x ->
  (y <- simd_cast (fun v => Ok (cxx_cast t u v)) 0%Z N x;;
   simd_cast (fun v => Ok (cxx_cast u t v)) 0%Z N y) = Ok x.
Proof. exact simd_cast_roundtrip. Qed.
Print Assumptions C10_generic_widen_narrow.
Theorem C10_integer_cast_value : forall (t u : ity) (x : Z),
  ity_ok t -> ity_ok u -> word (iw t) x ->
  (imin u <= ival t x <= imax u)%Z -> ival u (cxx_cast t u x) = ival t x.
Proof. exact cxx_cast_value. Qed.
Print Assumptions C10_integer_cast_value.
Example C10_case : (y <- simd_cast (fun v => Ok (cxx_cast int8 uint32 v)) 0%Z 2 [200; 3]%Z;;
  simd_cast (fun v => Ok (cxx_cast uint32 int8 v)) 0%Z 2 y) = Ok [200; 3]%Z.
Proof. reflexivity. Qed.

(** *** C11 *)
Theorem C11_generic_min_max : forall (T : scalar) (N : nat) (a b : list (elt T)), length a = N -> length b = N ->
  elementwise2 N (fun x y => Ok (if sc_cmp T CLt y x then y else x)) a b (simd_min T N a b) /\
  elementwise2 N (fun x y => Ok (if sc_cmp T CLt x y then y else x)) a b (simd_max T N a b).
Proof. intros T N a b H H'; exact (conj (simd_min_elementwise T N a b H H') (simd_max_elementwise T N a b H H')). Qed.
Print Assumptions C11_generic_min_max.
Theorem C11_generic_min_max_scalar : forall (T : scalar) (N : nat) (a : list (elt T)) (b : elt T), length a = N ->
  elementwise1 N (fun x => Ok (if sc_cmp T CLt b x then b else x)) a (simd_min_s T N a b) /\
  elementwise1 N (fun x => Ok (if sc_cmp T CLt x b then b else x)) a (simd_max_s T N a b).
Proof. intros T N a b H; exact (conj (simd_min_s_elementwise T N a b H) (simd_max_s_elementwise T N a b H)). Qed.
Print Assumptions C11_generic_min_max_scalar.
Theorem C11_generic_clamp : forall (T : scalar) (N : nat) (x lo hi : list (elt T)) (l h : elt T),
  length x = N -> length lo = N -> length hi = N ->
  elementwise3 N (std_clamp T) x lo hi (simd_clamp T N x lo hi) /\
  elementwise1 N (fun v => std_clamp T v l h) x (simd_clamp_s T N x l h).
Proof. intros T N x lo hi l h H H' H''; exact (conj (simd_clamp_elementwise T N x lo hi H H' H'') (simd_clamp_s_elementwise T N x l h H)). Qed.
Print Assumptions C11_generic_clamp.
Theorem C11_integer_min_max_clamp_meaning : forall (t : ity) (v lo hi : Z),
  ival t (std_min (int_scalar t) v lo) = Z.min (ival t v) (ival t lo) /\
  ival t (std_max (int_scalar t) v lo) = Z.max (ival t v) (ival t lo) /\
  ((ival t lo <= ival t hi)%Z ->
   exists r, std_clamp (int_scalar t) v lo hi = Ok r /\ (ival t lo <= ival t r <= ival t hi)%Z /\
    ((ival t lo <= ival t v <= ival t hi)%Z -> r = v)).
Proof. intros t v lo hi; exact (conj (std_min_value t v lo) (conj (std_max_value t v lo) (std_clamp_value t v lo hi))). Qed.
Print Assumptions C11_integer_min_max_clamp_meaning.
(** minmax reads dangling references for every non-empty vector. *)
Theorem C11_generic_minmax_refuted : forall (T : scalar) (N : nat) (a b : list (elt T)),
  0 < N -> length a = N -> length b = N -> simd_minmax T N a b = UB.
Proof. exact simd_minmax_ub. Qed.
Print Assumptions C11_generic_minmax_refuted.
Example C11_case : simd_clamp_s (int_scalar int32) 3 [1; 5; 9]%Z 2%Z 6%Z = Ok [2; 5; 6]%Z.
Proof. reflexivity. Qed.

(** *** C12: lsr excludes n = 0, where the code is wrong. *)
Theorem C12_generic_shift_functions_partial : forall (t : ity) (n : Z) (N : nat) (x : list Z),
  ity_ok t -> length x = N -> Forall (word (iw t)) x -> (0 <= n < iw t)%Z ->
  elementwise1 N (fun v => Ok (shl_bits (iw t) n v)) x (simd_lsl t n N x) /\
  ((1 <= n < iw t)%Z -> elementwise1 N (fun v => Ok (lshr_bits n v)) x (simd_lsr t n N x)) /\
  (isg t = true -> elementwise1 N (fun v => Ok (shl_bits (iw t) n v)) x (simd_asl t n N x)) /\
  (isg t = true -> elementwise1 N (fun v => Ok (ashr_bits (iw t) n v)) x (simd_asr t n N x)).
Proof. exact shift_functions. Qed.
Print Assumptions C12_generic_shift_functions_partial.
Theorem C12_generic_lsr_zero_refuted : exists x, word 32 x /\ lsr_impl uint32 0 x <> Ok (lshr_bits 0 x).
Proof. exact lsr_zero_wrong. Qed.
Print Assumptions C12_generic_lsr_zero_refuted.
Example C12_case : simd_asr int8 2 2 [128; 20]%Z = Ok [224; 5]%Z /\ simd_lsr int8 2 2 [128; 20]%Z = Ok [32; 5]%Z.
Proof. split; reflexivity. Qed.
