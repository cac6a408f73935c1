(** Programs over vector and mask registers, run on the generic backend and on the x86 backend (C23). *)
From Coq Require Import ZifyBool ZifyNat.
From Verif Require Import Base Cxx Spec Generic GenericProofs X86Vec X86 X86Lemmas X86Proofs X86Masks X86Ops X86Mem X86Shift Alias X86Scalar.
Set Implicit Arguments.

(** *** Instructions: calls of the public API on registers.  [d], [a], [b] vector registers, [m], [c] mask registers. *)
Inductive red := RAll | RAny | RNone | RSome | RCount | RMinIndex | RMaxIndex.
Inductive instr :=
| IBroadcast (d : nat) (v : Z)                       (* simd(v) *)
| IGenerate (d : nat) (g : nat -> Z)                 (* simd(gen) *)
| ILoad (d p : nat) | IStore (a p : nat)             (* copy_from / copy_to, element_aligned *)
| IBin (o : binop) (d a b : nat)                     (* a op b *)
| IBinS (o : binop) (d a : nat) (v : Z)              (* a op v *)
| IShiftS (left : bool) (d a : nat) (n : Z)          (* a << n, a >> n *)
| INeg (d a : nat) | INot (d a : nat)                (* -a, ~a *)
| IInc (d : nat) | IDec (d : nat)                    (* ++d, --d *)
| ILsl (n : Z) (d a : nat) | ILsr (n : Z) (d a : nat) | IAsl (n : Z) (d a : nat) | IAsr (n : Z) (d a : nat)
| IMin (d a b : nat) | IMax (d a b : nat)
| ICmp (o : cmpop) (m a b : nat) | ILnot (m a : nat) (* a == b ..., !a *)
| IBlend (d m a b : nat)
| ISet (d i : nat) (v : Z) | IGet (a i : nat)        (* d[i] = v, output a[i] *)
| IMBroadcast (m : nat) (b : bool) | IMGenerate (m : nat) (g : nat -> bool)
| IMBin (o : mask_bin) (m a b : nat) | IMNot (m a : nat)
| IMBlend (m c a b : nat)
| IMSet (o : ref_op) (m i : nat) (b : bool) | IMGet (m i : nat)  (* m[i] op= b, output m[i] *)
| IRed (r : red) (m : nat).                          (* output all_of(m) ... *)

Record state (V M : Type) := St { vr : list V; mr : list M; mem : list Z; out : list Z }.
Definition put_v {V M} (s : state V M) d (x : V) : res (state V M) :=
  v <- set (vr s) d x;; Ok {| vr := v; mr := mr s; mem := mem s; out := out s |}.
Definition put_m {V M} (s : state V M) d (x : M) : res (state V M) :=
  v <- set (mr s) d x;; Ok {| vr := vr s; mr := v; mem := mem s; out := out s |}.
Definition put_mem {V M} (s : state V M) (m : list Z) : res (state V M) :=
  Ok {| vr := vr s; mr := mr s; mem := m; out := out s |}.
Definition emit {V M} (s : state V M) (z : Z) : res (state V M) :=
  Ok {| vr := vr s; mr := mr s; mem := mem s; out := out s ++ [z] |}.
(** Reductions on an API that needs a true element: calling them without one is undefined. *)
Definition red_val (all any none some : res bool) (count mini maxi : res nat) (r : red) : res Z :=
  match r with
  | RAll => b <- all;; Ok (Z.b2z b) | RAny => b <- any;; Ok (Z.b2z b)
  | RNone => b <- none;; Ok (Z.b2z b) | RSome => b <- some;; Ok (Z.b2z b)
  | RCount => n <- count;; Ok (Z.of_nat n)
  | RMinIndex => b <- any;; if b then n <- mini;; Ok (Z.of_nat n) else UB
  | RMaxIndex => b <- any;; if b then n <- maxi;; Ok (Z.of_nat n) else UB
  end.

Section Machines.
Context (X : xty) (F : fops).
Let N := xN X.
Let T := xT X.
Let sc := xscalar T F.
Let t := ity_of T.

(** *** The generic backend *)
Definition gstate := state (list Z) (list bool).
Definition g_step (i : instr) (s : gstate) : res gstate :=
  match i with
  | IBroadcast d v => x <- broadcast N v (repeat 0%Z N);; put_v s d x
  | IGenerate d g => ' (x, _) <- generate N (fun i (u : unit) => Ok (g i, u)) (repeat 0%Z N) tt;; put_v s d x
  | ILoad d p => x <- copy_from Ok N (mem s) p (repeat 0%Z N);; put_v s d x
  | IStore a p => x <- get (vr s) a;; m <- copy_to Ok N x (mem s) p;; put_mem s m
  | IBin o d a b => x <- get (vr s) a;; y <- get (vr s) b;; r <- simd_binary sc o N x y;; put_v s d r
  | IBinS o d a v => x <- get (vr s) a;; r <- simd_binary_s sc o N x v;; put_v s d r
  | IShiftS l d a n => x <- get (vr s) a;; r <- simd_shift_s sc l N x n;; put_v s d r
  | INeg d a => x <- get (vr s) a;; r <- simd_neg sc N x;; put_v s d r
  | INot d a => x <- get (vr s) a;; r <- simd_not sc N x;; put_v s d r
  | IInc d => x <- get (vr s) d;; r <- simd_preinc sc N x;; put_v s d r
  | IDec d => x <- get (vr s) d;; r <- simd_predec sc N x;; put_v s d r
  | ILsl n d a => x <- get (vr s) a;; r <- simd_lsl t n N x;; put_v s d r
  | ILsr n d a => x <- get (vr s) a;; r <- simd_lsr t n N x;; put_v s d r
  | IAsl n d a => x <- get (vr s) a;; r <- simd_asl t n N x;; put_v s d r
  | IAsr n d a => x <- get (vr s) a;; r <- simd_asr t n N x;; put_v s d r
  | IMin d a b => x <- get (vr s) a;; y <- get (vr s) b;; r <- simd_min sc N x y;; put_v s d r
  | IMax d a b => x <- get (vr s) a;; y <- get (vr s) b;; r <- simd_max sc N x y;; put_v s d r
  | ICmp o m a b => x <- get (vr s) a;; y <- get (vr s) b;; r <- simd_cmp sc o N x y;; put_m s m r
  | ILnot m a => x <- get (vr s) a;; r <- simd_lnot sc N x;; put_m s m r
  | IBlend d m a b => c <- get (mr s) m;; x <- get (vr s) a;; y <- get (vr s) b;; r <- blend 0%Z N c x y;; put_v s d r
  | ISet d i v => x <- get (vr s) d;; r <- index_set x i v;; put_v s d r
  | IGet a i => x <- get (vr s) a;; v <- index_get x i;; emit s v
  | IMBroadcast m b => x <- broadcast N b (repeat false N);; put_m s m x
  | IMGenerate m g => ' (x, _) <- generate N (fun i (u : unit) => Ok (g i, u)) (repeat false N) tt;; put_m s m x
  | IMBin o m a b => x <- get (mr s) a;; y <- get (mr s) b;; r <- mask_binary o N x y;; put_m s m r
  | IMNot m a => x <- get (mr s) a;; r <- mask_unary MNot N x;; put_m s m r
  | IMBlend m c a b => k <- get (mr s) c;; x <- get (mr s) a;; y <- get (mr s) b;; r <- blend false N k x y;; put_m s m r
  | IMSet o m i b => x <- get (mr s) m;; v <- index_get x i;; r <- index_set x i (bool_op o v b);; put_m s m r
  | IMGet m i => x <- get (mr s) m;; v <- index_get x i;; emit s (Z.b2z v)
  | IRed r m => x <- get (mr s) m;;
      z <- red_val (all_of N x) (any_of N x) (none_of N x) (some_of N x) (reduce_count N x) (reduce_min_index N x) (reduce_max_index N x) r;;
      emit s z
  end.

(** *** The x86 backend. [junk] is the indeterminate content of freshly created objects. *)
Definition xstate := state (list vec) (list vec).
Definition x_binary (junk : list vec) (o : binop) (a b : list vec) : res (list vec) :=
  match o with
  | OpAdd => x_add X F a b
  | OpSub => x_sub X F a b
  | OpMul => if is_int T then x_mul_i X F junk a b else x_mul_f X F a b
  | OpDiv => if is_int T then x_div_i X junk a b else x_div_f X F a b
  | OpMod => x_mod_i X junk a b
  | OpAnd => x_and X a b
  | OpOr => x_or X a b
  | OpXor => x_xor X a b
  | OpShl => x_shl X junk a b
  | OpShr => x_shr X junk a b
  end.
Definition x_binary_s (junk : list vec) (o : binop) (a : list vec) (v : Z) : res (list vec) :=
  match o with
  | OpAdd => x_add_s X F a v
  | OpSub => x_sub_s X F a v
  | OpMul => if is_int T then x_mul_is X F junk a v else x_mul_fs X F a v
  | OpDiv => if is_int T then UB else x_div_fs X F a v          (* integral form not modelled *)
  | OpAnd => x_and_s X a v
  | OpOr => x_or_s X a v
  | OpXor => x_xor_s X a v
  | _ => UB                                                      (* not modelled *)
  end.
Definition x_compare (o : cmpop) (a b : list vec) : res (list vec) :=
  match o with
  | CEq => x_eq X a b
  | CNe => x_ne X a b
  | CLt => if is_int T then x_lt_i X a b else x_lt_f X a b
  | CLe => if is_int T then x_le_i X a b else x_le_f X a b
  | CGt => if is_int T then x_gt_i X a b else x_gt_f X a b
  | CGe => if is_int T then x_ge_i X a b else x_ge_f X a b
  end.
Definition x_mask_binary (o : mask_bin) (a b : list vec) : res (list vec) :=
  match o with
  | MAnd => mask_and X a b | MOr => mask_or X a b | MXor => mask_xor X a b
  | MLAnd => mask_land X a b | MLOr => mask_lor X a b | MEq => mask_meq X a b | MNe => mask_mne X a b
  end.
Definition x_step (junk : list vec) (i : instr) (s : xstate) : res xstate :=
  match i with
  | IBroadcast d v => put_v s d (x_broadcast X v)
  | IGenerate d g => ' (x, _) <- x_generate X (fun i (u : unit) => Ok (g i, u)) junk tt;; put_v s d x
  | ILoad d p => x <- x_copy_from X Ok false (mem s) p junk;; put_v s d x
  | IStore a p => x <- get (vr s) a;; m <- x_copy_to X Ok false x (mem s) p;; put_mem s m
  | IBin o d a b => x <- get (vr s) a;; y <- get (vr s) b;; r <- x_binary junk o x y;; put_v s d r
  | IBinS o d a v => x <- get (vr s) a;; r <- x_binary_s junk o x v;; put_v s d r
  | IShiftS l d a n => x <- get (vr s) a;; r <- (if l then x_shl_s X junk x n else x_shr_s X junk x n);; put_v s d r
  | INeg d a => x <- get (vr s) a;; r <- x_neg X F x;; put_v s d r
  | INot d a => x <- get (vr s) a;; r <- x_not X junk x;; put_v s d r
  | IInc d => x <- get (vr s) d;; r <- x_inc X F (sc_one sc) x;; put_v s d r
  | IDec d => x <- get (vr s) d;; r <- x_dec X F (sc_one sc) x;; put_v s d r
  | ILsl n d a => x <- get (vr s) a;; r <- x_lsl X n x;; put_v s d r
  | ILsr n d a => x <- get (vr s) a;; r <- x_lsr X n x;; put_v s d r
  | IAsl n d a => x <- get (vr s) a;; r <- x_asl X n x;; put_v s d r
  | IAsr n d a => x <- get (vr s) a;; r <- x_asr X n x;; put_v s d r
  | IMin d a b => x <- get (vr s) a;; y <- get (vr s) b;; r <- x_min X x y;; put_v s d r
  | IMax d a b => x <- get (vr s) a;; y <- get (vr s) b;; r <- x_max X x y;; put_v s d r
  | ICmp o m a b => x <- get (vr s) a;; y <- get (vr s) b;; r <- x_compare o x y;; put_m s m r
  | ILnot m a => x <- get (vr s) a;; r <- x_lnot X x;; put_m s m r
  | IBlend d m a b => c <- get (mr s) m;; x <- get (vr s) a;; y <- get (vr s) b;; r <- x_blend X c x y;; put_v s d r
  | ISet d i v => x <- get (vr s) d;; r <- xset X x i v;; put_v s d r
  | IGet a i => x <- get (vr s) a;; v <- xget X x i;; emit s v
  | IMBroadcast m b => put_m s m (mask_broadcast X b)
  | IMGenerate m g => ' (x, _) <- mask_generate X (fun i (u : unit) => Ok (g i, u)) junk tt;; put_m s m x
  | IMBin o m a b => x <- get (mr s) a;; y <- get (mr s) b;; r <- x_mask_binary o x y;; put_m s m r
  | IMNot m a => x <- get (mr s) a;; r <- mask_lnot X x;; put_m s m r
  | IMBlend m c a b => k <- get (mr s) c;; x <- get (mr s) a;; y <- get (mr s) b;; r <- x_blend X k x y;; put_m s m r
  | IMSet o m i b => x <- get (mr s) m;; r <- mask_ref X o x i b;; put_m s m r
  | IMGet m i => x <- get (mr s) m;; v <- mget X x i;; emit s (Z.b2z v)
  | IRed r m => x <- get (mr s) m;;
      z <- red_val (x_all_of X x) (x_any_of X x) (x_none_of X x) (x_some_of X x) (x_reduce_count X x) (x_reduce_min_index X x) (x_reduce_max_index X x) r;;
      emit s z
  end.

(** *** The instructions of this type and configuration that are free of the defects listed in DESIGN.md *)
Definition supported (i : instr) : Prop :=
  match i with
  | IBroadcast _ v => word (xw X) v
  | IGenerate _ g => forall i, word (xw X) (g i)
  | ILoad _ _ | IStore _ _ => True
  | IBin o _ _ _ =>
      match o with
      | OpAdd | OpSub => True
      | OpMul => is_int T = false \/ mul_native X = true \/ full X
      | OpDiv => is_int T = false \/ full X
      | OpMod => is_int T = true /\ full X
      | OpAnd | OpOr | OpXor => is_int T = true
      | OpShl => is_int T = true /\ (shift_native X = true \/ full X)
      | OpShr => ek T = KInt false /\ shift_native X = true
      end
  | IBinS o _ _ v => word (xw X) v /\
      match o with
      | OpAdd | OpSub => True
      | OpMul => is_int T = false \/ mul_native X = true \/ full X
      | OpDiv => is_int T = false
      | OpAnd | OpOr | OpXor => is_int T = true
      | _ => False
      end
  | IShiftS l _ _ n => is_int T = true /\ (0 <= n < xw X)%Z /\
      (if shift_native X then l = true \/ ek T = KInt false else full X)
  | INeg _ _ => True
  | INot _ _ => is_int T = true /\ full X
  | IInc _ | IDec _ => True
  | ILsl n _ _ | IAsl n _ _ => is_int T = true /\ 1 < esz T /\ (0 <= n < xw X)%Z
  | ILsr n _ _ => is_int T = true /\ 1 < esz T /\ (1 <= n < xw X)%Z
  | IAsr n _ _ => ek T = KInt true /\ 1 < esz T /\ (0 <= n < xw X)%Z /\ (esz T <> 8 \/ (n = 0 \/ 32 <= n)%Z)
  | IMin _ _ _ | IMax _ _ _ => is_int T = true /\ sse41 (xc X) = true /\ esz T < 8
  | ICmp o _ _ _ => match o with CEq | CNe => True | _ => (ek T = KInt true /\ sse41 (xc X) = true) \/ ek T = KFloat end
  | ILnot _ _ | IBlend _ _ _ _ => True
  | ISet _ _ v => word (xw X) v
  | IGet _ _ => True
  | IMBroadcast _ _ | IMGenerate _ _ => True
  | IMBin o _ _ _ => o <> MLAnd
  | IMNot _ _ | IMBlend _ _ _ _ => True
  | IMSet _ _ _ _ => True
  | IMGet _ _ => True
  | IRed r _ => tails_safe X /\ match r with RMaxIndex => full X | _ => True end
  end.
End Machines.

(** *** Structured programs with data-dependent control: sequence, if (any_of(m)), while (any_of(m)). *)
Inductive cmd := CDo (i : instr) | CSeq (a b : cmd) | CIf (m : nat) (a b : cmd) | CWhile (m : nat) (a : cmd) | CSkip.
Section Exec.
Context {S : Type} (step : instr -> S -> res S) (test : nat -> S -> res bool).
Inductive exec : cmd -> S -> S -> Prop :=
| exec_do i s s' : step i s = Ok s' -> exec (CDo i) s s'
| exec_skip s : exec CSkip s s
| exec_seq a b s s1 s2 : exec a s s1 -> exec b s1 s2 -> exec (CSeq a b) s s2
| exec_if m a b s s' c : test m s = Ok c -> exec (if c then a else b) s s' -> exec (CIf m a b) s s'
| exec_done m a s : test m s = Ok false -> exec (CWhile m a) s s
| exec_loop m a s s1 s2 : test m s = Ok true -> exec a s s1 -> exec (CWhile m a) s1 s2 -> exec (CWhile m a) s s2.
End Exec.
Definition g_test (X : xty) (m : nat) (s : gstate) : res bool := x <- get (mr s) m;; any_of (xN X) x.
Definition x_test (X : xty) (m : nat) (s : xstate) : res bool := x <- get (mr s) m;; x_any_of X x.
Fixpoint supported_cmd (X : xty) (c : cmd) : Prop :=
  match c with
  | CDo i => supported X i
  | CSeq a b => supported_cmd X a /\ supported_cmd X b
  | CIf _ a b => tails_safe X /\ supported_cmd X a /\ supported_cmd X b
  | CWhile _ a => tails_safe X /\ supported_cmd X a
  | CSkip => True
  end.

(** *** The two machines hold the same elements: N elements each, lanes of a mask 0 or all ones, padding arbitrary. *)
Definition same_vec (X : xty) (x : list vec) (g : list Z) : Prop := shaped X x /\ elems X x = g.
Definition same_mask (X : xty) (x : list vec) (g : list bool) : Prop := shaped X x /\ elems X x = map (mlane (xw X)) g.
Definition same_state (X : xty) (xs : xstate) (gs : gstate) : Prop :=
  Forall2 (same_vec X) (vr xs) (vr gs) /\ Forall2 (same_mask X) (mr xs) (mr gs) /\
  mem xs = mem gs /\ words (xw X) (mem gs) /\ out xs = out gs.
