(** The logarithm kernels act on every lane separately and never read outside their tables: their lane functions. *)
From Coq Require Import ZifyBool ZifyNat.
From Verif Require Import Base Cxx Spec X86Vec X86 X86Lemmas X86Proofs X86Ops X86Shift Fp FpLemmas FpOps FKern FMath FMathProofs FLane FManip FManipLanes FArith
  Cvt FRoute FRouteProofs PropFloat PropManip PropArith LogTab Log.
Set Implicit Arguments.

Section Log.
Context {X : xty} (HX : xty_ok X) (HF : is_int (xT X) = false) (fm pn he : bool) (nn : nans).
Local Notation w := (xw X).
Local Notation f := (xf X).
Local Notation L := (L X).
Local Notation LM := (LM X).
Local Notation m := (mant (xw X)).
Open Scope Z_scope.

Lemma esz_w : (esz (xT X) =? 4)%nat = (w =? 32).
Proof.
  unfold xw, ew. destruct (w_cases HX HF) as [E | E]; unfold xw, ew in E; [replace (esz (xT X)) with 4%nat by lia | replace (esz (xT X)) with 8%nat by lia]; reflexivity.
Qed.
Lemma mapM_map {A B} (g : A -> res B) (h : A -> B) l : Forall (fun x => g x = Ok (h x)) l -> mapM g l = Ok (map h l).
Proof. induction 1 as [|x l Hx Hl IH]; auto. cbn [mapM map]. now rewrite Hx, IH. Qed.
Definition lut1 (tab : list Z) (i : Z) : Z := nth (Z.to_nat i) tab 0.
Lemma lut_get_ok tab i : 0 <= i < Z.of_nat (length tab) -> lut_get tab i = Ok (lut1 tab i).
Proof.
  intros Hi. unfold lut_get, lut1. replace (i <? _) with true by lia.
  destruct (nth_error tab (Z.to_nat i)) as [v|] eqn:E. { now rewrite (nth_error_nth _ _ 0 E). } apply nth_error_None in E. lia.
Qed.
Lemma lut_load_ok tab idx g : Forall (word w) tab -> wfv X idx -> (forall k i, L k idx i -> 0 <= i < Z.of_nat (length tab) /\ lut1 tab i = g i) ->
  exists v, lut_load tab idx = Ok v /\ wfv X v /\ forall k i, L k idx i -> L k v (g i).
Proof.
  intros Ht Hi Hg. exists (map (lut1 tab) idx).
  assert (Hr : Forall (fun i => 0 <= i < Z.of_nat (length tab)) idx).
  { apply Forall_forall. intros i Hin. destruct (In_nth_error _ _ Hin) as [k Hk]. apply (Hg k). now split. }
  assert (W : wfv X (map (lut1 tab) idx)).
  { destruct Hi as [Li Wi]. split. { now rewrite map_length. } apply Forall_map. eapply Forall_impl; [|exact Hr].
    intros i Hi. apply (proj1 (Forall_forall _ _) Ht). apply nth_In. cbv beta in Hi. clear -Hi. lia. }
  split; [|split; auto].
  - unfold lut_load. apply mapM_map. eapply Forall_impl; [|exact Hr]. intros i H. now apply lut_get_ok.
  - intros k i Hk. split; auto. rewrite <- (proj2 (Hg _ _ Hk)). apply map_nth_error. apply Hk.
Qed.
Lemma lut_load_ok1 tab idx : Forall (word w) tab -> wfv X idx -> (forall k i, L k idx i -> 0 <= i < Z.of_nat (length tab)) ->
  exists v, lut_load tab idx = Ok v /\ wfv X v /\ forall k i, L k idx i -> L k v (lut1 tab i).
Proof. intros Ht Hi Hg. apply lut_load_ok; auto. intros k i H. split; eauto. Qed.

(** the table has 2^(bits+1) entries, each a w-bit word *)
Definition tab_ok (bits : Z) (tab : list Z) : Prop := Forall (word w) tab /\ Z.of_nat (length tab) = 2 ^ (bits + 1).
Lemma words_dec n tab : forallb (fun x => (0 <=? x) && (x <? 2 ^ n)) tab = true -> Forall (word n) tab.
Proof. intros H. apply Forall_forall. intros x Hx. rewrite forallb_forall in H. specialize (H x Hx). unfold word. lia. Qed.
Lemma logtab_ok : tab_ok (logtab_bits w) (logtab w).
Proof.
  unfold tab_ok, logtab, logtab_bits. destruct (w_cases HX HF) as [-> | ->]; cbn [Z.eqb Pos.eqb]; (split; [|reflexivity]);
    apply words_dec; vm_compute; reflexivity.
Qed.
Lemma log2tab_ok : tab_ok (log2tab_bits w) (log2tab w).
Proof.
  unfold tab_ok, log2tab, log2tab_bits. destruct (w_cases HX HF) as [-> | ->]; cbn [Z.eqb Pos.eqb]; (split; [|reflexivity]);
    apply words_dec; vm_compute; reflexivity.
Qed.
Lemma bits_range : 0 <= logtab_bits w <= m /\ 0 <= log2tab_bits w <= m.
Proof. unfold logtab_bits, log2tab_bits, mant. destruct (w =? 32); lia. Qed.

(** one lane of the reduction *)
Definition ltmp (x : Z) : Z := (x - log_off w) mod 2 ^ w.
Definition lidx (bits x : Z) : Z := Z.land (lshr_bits (m - bits) (ltmp x)) (2 ^ bits - 1).
Definition linvc (bits : Z) (tab : list Z) (x : Z) : Z := lut1 tab (2 * lidx bits x).
Definition llogc (bits : Z) (tab : list Z) (x : Z) : Z := lut1 tab (2 * lidx bits x + 1).
Definition lz (x : Z) : Z := (x - Z.land (ltmp x) ((2 ^ (w - m) - 1) * 2 ^ m)) mod 2 ^ w.
Definition lk (x : Z) : Z := ashr_bits w m (ltmp x).
Definition lcvt (k : Z) : Z := if w =? 32 then fof_int F32 (sgn 32 k) else fof_int F64 (sgn 32 (lo32 k)).
Lemma lidx_range bits x : 0 <= bits -> 0 <= lidx bits x < 2 ^ bits.
Proof.
  intros Hb. unfold lidx. replace (2 ^ bits - 1) with (Z.ones bits) by (rewrite Z.ones_equiv; lia). rewrite Z.land_ones by auto.
  apply Z.mod_pos_bound. apply pow2_pos; auto.
Qed.
Lemma l_asr k v x n : 0 <= n -> L k v x -> L k (c_ashiftr (as_int X) n v) (lane_asr X n x).
Proof.
  intros Hn Hv. rewrite (c_ashiftr_lanes (as_int_ok HX)) by exact (L_wf Hv).
  apply (@l_map X k (lane_asr X n)); auto. intros. apply lane_asr_word; auto.
Qed.
Lemma lane_asr_m x : word w x -> lane_asr X m x = ashr_bits w m x.
Proof.
  intros Hx. unfold lane_asr. destruct (Nat.eqb_spec (esz (xT X)) 8) as [E|E]; auto.
  assert (Hw : w = 64) by (unfold xw, ew; rewrite E; reflexivity). revert Hx. rewrite Hw. intros Hx. apply asr_lane_ok; auto; cbn; lia.
Qed.
Lemma l_cvt k v x : L k v x -> L k (log_cvt X v) (lcvt x).
Proof.
  intros Hv. unfold log_cvt, lcvt. rewrite esz_w. destruct (w_cases HX HF) as [Ew | Ew]; rewrite Ew; cbn [Z.eqb Pos.eqb].
  - apply (@l_map X k (fun x => fof_int F32 (sgn 32 x))); auto. intros. rewrite Ew. apply (@enc_word F32).
  - assert (E8 : esz (xT X) = 8%nat) by (unfold xw, ew in Ew; lia).
    assert (C : firstn (ext X) (cvt_i64_i32 X v) = map lo32 v).
    { destruct Hv as [[Lv _] _]. destruct (@w8 X HX E8) as [_ Ee]. unfold cvt_i64_i32. rewrite Ee in *. destruct (is256 X).
      - destruct v as [|a [|b [|c [|d [|]]]]]; try discriminate. reflexivity.
      - destruct v as [|a [|b [|]]]; try discriminate. reflexivity. }
    rewrite C. unfold cvtepi32_pd, vmap. rewrite map_map. apply (@l_map X k (fun x => fof_int F64 (sgn 32 (lo32 x)))); auto. intros. rewrite Ew. apply (@enc_word F64).
Qed.
Lemma wrap_id c : word w c -> wrap w c = c. Proof. intros H. unfold wrap. apply Z.mod_small. exact H. Qed.
Lemma log_reduce_ok bits tab ix : 0 <= bits <= m -> bits + 1 < w -> tab_ok bits tab -> wfv X ix ->
  exists ic lc z kf, log_reduce X nn bits tab ix = Ok (ic, lc, z, kf) /\
    (wfv X ic /\ wfv X lc /\ wfv X z /\ wfv X kf) /\
    forall k x, L k ix x -> L k ic (linvc bits tab x) /\ L k lc (llogc bits tab x) /\ L k z (lz x) /\ L k kf (lcvt (lk x)).
Proof.
  intros Hb Hb1 [Ht Hl] Hix. pose proof (mant_pos X HF) as Hm.
  unfold log_reduce, log_get_table. cbv zeta.
  set (tmp := v_sub (as_int X) (ieee nn) ix (ifill (as_int X) (log_off w))).
  assert (Wo : word w (log_off w)). { unfold word, log_off. destruct (w_cases HX HF) as [-> | ->]; cbn; lia. }
  assert (T : forall k x, L k ix x -> L k tmp (ltmp x)).
  { intros k x Hx. unfold ltmp. rewrite <- (wrap_id Wo). apply li_sub; auto. apply li_ifill; auto. exact (L_lt Hx). }
  set (i := v_and (c_shiftr (as_int X) (m - bits) tmp) (ifill (as_int X) (2 ^ bits - 1))).
  assert (Pb : 0 < 2 ^ bits /\ 2 ^ bits * 2 = 2 ^ (bits + 1) /\ 2 ^ (bits + 1) < 2 ^ w).
  { split; [apply pow2_pos; lia|]. split. rewrite Z.pow_add_r by lia. lia. apply Z.pow_lt_mono_r; lia. }
  assert (Ti : forall k x, L k ix x -> L k i (lidx bits x)).
  { intros k x Hx. unfold lidx. rewrite <- (@wrap_id (2 ^ bits - 1)) by (unfold word; lia). apply l_and; auto. apply li_shiftr; auto; lia. apply li_ifill; auto. exact (L_lt Hx). }
  set (i2 := c_shiftl (as_int X) 1 i). set (i3 := v_add (as_int X) (ieee nn) i2 (ifill (as_int X) 1)).
  assert (T2 : forall k x, L k ix x -> L k i2 (2 * lidx bits x)).
  { intros k x Hx. pose proof (@lidx_range bits x (proj1 Hb)) as R. replace (2 * lidx bits x) with (shl_bits w 1 (lidx bits x)). { now apply li_shiftl, Ti. }
    unfold shl_bits. replace (w <=? 1) with false by lia. rewrite Z.mod_small; lia. }
  assert (T3 : forall k x, L k ix x -> L k i3 (2 * lidx bits x + 1)).
  { intros k x Hx. pose proof (@lidx_range bits x (proj1 Hb)) as R.
    replace (2 * lidx bits x + 1) with ((2 * lidx bits x + wrap w 1) mod 2 ^ w). { apply li_add; auto. apply li_ifill; auto. exact (L_lt Hx). }
    rewrite wrap_id by (unfold word; lia). apply Z.mod_small. lia. }
  assert (Ev : forall v, (forall k x, L k ix x -> exists y, L k v y) -> wfv X v).
  { intros v H. pose proof (ext_pos HX) as He. destruct (L_all HX Hix He) as [x Hx]. destruct (H _ _ Hx) as [y Hy]. exact (L_wf Hy). }
  assert (R2 : forall v g, (forall k x, L k ix x -> L k v (g x)) -> forall k i, L k v i -> exists x, L k ix x /\ i = g x).
  { intros v g H k y Hy. destruct (L_all HX Hix (L_lt Hy)) as [x Hx]. exists x. split; auto. exact (L_fun Hy (H _ _ Hx)). }
  destruct (@lut_load_ok1 tab i2) as (ic & E2 & W2 & H2); auto.
  { apply Ev. intros. eexists. eauto. }
  { intros k y Hy. destruct (R2 _ _ T2 _ _ Hy) as (x & _ & ->). pose proof (@lidx_range bits x (proj1 Hb)). lia. }
  destruct (@lut_load_ok1 tab i3) as (lc & E3 & W3 & H3); auto.
  { apply Ev. intros. eexists. eauto. }
  { intros k y Hy. destruct (R2 _ _ T3 _ _ Hy) as (x & _ & ->). pose proof (@lidx_range bits x (proj1 Hb)). lia. }
  rewrite E2. cbn [bind]. rewrite E3. cbn [bind fst snd].
  assert (Wc : word w ((2 ^ (w - m) - 1) * 2 ^ m)). { unfold word. destruct (w_cases HX HF) as [-> | ->]; cbn; lia. }
  assert (TZ : forall k x, L k ix x -> L k (v_sub (as_int X) (ieee nn) ix (v_and tmp (ifill (as_int X) ((2 ^ (w - m) - 1) * 2 ^ m)))) (lz x)).
  { intros k x Hx. unfold lz. rewrite <- (wrap_id Wc) at 2. apply li_sub; auto. apply l_and; auto. apply li_ifill; auto. exact (L_lt Hx). }
  assert (TK : forall k x, L k ix x -> L k (log_cvt X (c_ashiftr (as_int X) m tmp)) (lcvt (lk x))).
  { intros k x Hx. apply l_cvt. unfold lk. rewrite <- lane_asr_m by exact (L_word (T _ _ Hx)). now apply l_asr, T. }
  do 4 eexists. split; [reflexivity|]. split.
  - split; [exact W2|]. split; [exact W3|]. split; apply Ev; intros; eexists; [apply TZ|apply TK]; eauto.
  - intros k x Hx. split; [apply H2; auto|]. split; [apply H3; auto|]. split; [apply TZ|apply TK]; auto.
Qed.

(** A kernel with an error result that acts on every lane separately. *)
Definition lanewise (K : vec -> res vec) (g : Z -> Z) : Prop :=
  forall a, wfv X a -> exists u, K a = Ok u /\ wfv X u /\ forall k v, L k a v -> L k u (g v).
Lemma lw_map K g : lanewise K g -> forall v, wfv X v -> K v = Ok (map g v).
Proof.
  intros H v Hv. destruct (H v Hv) as (u & E & Wu & Hu). rewrite E. f_equal. symmetry. apply (@L_ext X). { rewrite map_length. apply Hv. } { apply Wu. }
  intros k y Hk Hy. destruct (L_all HX Hv Hk) as [x Hx]. rewrite (map_nth_error g k v (proj2 Hx)) in Hy. injection Hy as <-. exact (proj2 (Hu _ _ Hx)).
Qed.
Lemma lw_word K g : lanewise K g -> forall v, word w v -> word w (g v).
Proof.
  intros H v Hv. pose proof (ext_pos HX) as He. assert (Hl := @l_fill X 0 v He Hv). destruct (H _ (L_wf Hl)) as (u & _ & _ & Hu). exact (L_word (Hu _ _ Hl)).
Qed.
Lemma lw_each K g x (P : Z -> Z -> Prop) : lanewise K g -> shaped X x -> (forall v, word (fw f) v -> P v (g v)) -> each1 X x (vz1 X K x) P.
Proof.
  intros H Hx HP. rewrite <- (xw_fw HX HF) in HP. eapply (map1_each HX Hx); [|exact HP]. apply vz1_map; auto. apply lw_map; auto. apply (lw_word H).
Qed.
Lemma lw_pure (K : vec -> vec) g : (forall k a v, (k < ext X)%nat -> L k a v -> L k (K a) (g v)) -> lanewise (fun a => Ok (K a)) g.
Proof.
  intros H a Ha. exists (K a). split; auto. pose proof (ext_pos HX) as He. destruct (L_all HX Ha He) as [x Hx]. split. exact (L_wf (H _ _ _ He Hx)).
  intros k v Hv. apply H; auto. exact (L_lt Hv).
Qed.

Local Notation fma := (fmadd1 (X := X) nn fm).
Definition cf (tab : list Z) (i : nat) : Z := nth i tab 0.
Definition elog1 (ix : Z) : Z :=
  let ic := linvc (logtab_bits w) (logtab w) ix in
  let lc := llogc (logtab_bits w) (logtab w) ix in
  let z := lz ix in
  let kf := lcvt (lk ix) in
  if w =? 32 then
    let r := fmsub1 (X := X) nn fm z ic (fone w) in
    let y0 := fma kf (c_ln2 w) lc in
    let r2 := fmul nn f r r in
    let y := fma (cf logcoff_f32 1) r (cf logcoff_f32 2) in
    let y := fma (cf logcoff_f32 0) r2 y in
    fma y r2 (fadd nn f y0 r)
  else
    let r := fma z ic (fminus1 w) in
    let y0 := fma kf (c_ln2 w) lc in
    let r2 := fmul nn f r r in
    let p := fma (cf logcoff_f64 1) r (cf logcoff_f64 0) in
    let y := fma (cf logcoff_f64 3) r (cf logcoff_f64 2) in
    let y := fma (cf logcoff_f64 4) r2 y in
    fma (fma y r2 p) r2 (fadd nn f y0 r).
Definition log2_1 (ix : Z) : Z :=
  let ic := linvc (log2tab_bits w) (log2tab w) ix in
  let lc := llogc (log2tab_bits w) (log2tab w) ix in
  let kf := lcvt (lk ix) in
  let r := fma (lz ix) ic (fminus1 w) in
  if w =? 32 then
    let y0 := fadd nn f lc kf in
    let r2 := fmul nn f r r in
    let p := fma (cf log2coff_f32 3) r y0 in
    let y := fma (cf log2coff_f32 1) r (cf log2coff_f32 2) in
    fma (fma (cf log2coff_f32 0) r2 y) r2 p
  else
    let t1 := fmul nn f r (c_invln2h w) in
    let t2 := fmsub1 (X := X) nn fm r (c_invln2h w) t1 in
    let t2 := fma r (c_invln2l w) t2 in
    let t3 := fadd nn f lc kf in
    let hi := fadd nn f t3 t1 in
    let lo := fadd nn f (fsub nn f t3 hi) (fadd nn f t1 t2) in
    let r2 := fmul nn f r r in
    let r4 := fmul nn f r2 r2 in
    let p := fma r (cf log2coff_f64 3) (cf log2coff_f64 2) in
    let y := fma (cf log2coff_f64 5) r (cf log2coff_f64 4) in
    let y := fma r4 y (cf log2coff_f64 0) in
    let y := fma r (cf log2coff_f64 1) y in
    let y := fma r2 (fma r2 p y) hi in
    fadd nn f lo y.
Lemma cw32 : w = 32 -> Forall (word w) logcoff_f32 /\ Forall (word w) log2coff_f32.
Proof. intros ->. split; apply words_dec; vm_compute; reflexivity. Qed.
Lemma cw64 : w = 64 -> Forall (word w) logcoff_f64 /\ Forall (word w) log2coff_f64.
Proof. intros ->. split; apply words_dec; vm_compute; reflexivity. Qed.
Lemma cword : word w (c_ln2 w) /\ word w (fone w) /\ word w (fminus1 w) /\ word w (c_invln2h w) /\ word w (c_invln2l w) /\ word w (c_ivln10 w) /\ word w (c_log10_2l w) /\ word w (c_log10_2h w).
Proof. unfold word. destruct (w_cases HX HF) as [-> | ->]; cbn; lia. Qed.
Lemma l_fc k tab i : (k < ext X)%nat -> (i < length tab)%nat -> Forall (word w) tab -> L k (fc X tab i) (cf tab i).
Proof. intros Hk Hi Ht. unfold fc, cf. apply l_fill; auto. apply (proj1 (Forall_forall _ _) Ht). now apply nth_In. Qed.
Lemma eval_log_lw : lanewise (eval_log X fm nn) elog1.
Proof.
  intros a Ha. destruct bits_range as [B1 B2]. destruct cword as (C1 & C2 & C3 & _).
  destruct (@log_reduce_ok (logtab_bits w) (logtab w) a B1) as (ic & lc & z & kf & E & (W1 & W2 & W3 & W4) & H); auto.
  { unfold mant in B1. destruct (w_cases HX HF) as [Q | Q]; rewrite Q in *; cbn in *; lia. } { apply logtab_ok. }
  unfold eval_log. cbv zeta. rewrite E. cbn [bind]. clear E.
  assert (T : forall K, (forall k v, L k a v -> L k K (elog1 v)) -> exists u, Ok K = Ok u /\ wfv X u /\ forall k v, L k a v -> L k u (elog1 v)).
  { intros K HK. exists K. split; auto. split; auto. pose proof (ext_pos HX) as He. destruct (L_all HX Ha He) as [x Hx]. exact (L_wf (HK _ _ Hx)). }
  unfold elog1 in *. rewrite esz_w. destruct (w_cases HX HF) as [Q | Q].
  - replace (w =? 32) with true in * by lia. apply T. clear T. intros k v Hv. pose proof (L_lt Hv) as Hk. destruct (H _ _ Hv) as (H1 & H2 & H3 & H4).
    assert (Hr := l_fmsub HX HF nn fm Hk H3 H1 (@l_fill X k _ Hk C2)).
    assert (Hy0 := l_fmadd HX HF nn fm Hk H4 (@l_fill X k _ Hk C1) H2).
    assert (Hr2 := lf_mul HX HF nn Hr Hr).
    assert (K : forall i, (i < 3)%nat -> L k (fc X logcoff_f32 i) (cf logcoff_f32 i)) by (intros; apply l_fc; auto; apply (cw32 Q)).
    assert (Hy := l_fmadd HX HF nn fm Hk (K 1%nat ltac:(lia)) Hr (K 2%nat ltac:(lia))).
    assert (Hy1 := l_fmadd HX HF nn fm Hk (K 0%nat ltac:(lia)) Hr2 Hy).
    exact (l_fmadd HX HF nn fm Hk Hy1 Hr2 (lf_add HX HF nn Hy0 Hr)).
  - replace (w =? 32) with false in * by lia. apply T. clear T. intros k v Hv. pose proof (L_lt Hv) as Hk. destruct (H _ _ Hv) as (H1 & H2 & H3 & H4).
    assert (Hr := l_fmadd HX HF nn fm Hk H3 H1 (@l_fill X k _ Hk C3)).
    assert (Hy0 := l_fmadd HX HF nn fm Hk H4 (@l_fill X k _ Hk C1) H2).
    assert (Hr2 := lf_mul HX HF nn Hr Hr).
    assert (K : forall i, (i < 5)%nat -> L k (fc X logcoff_f64 i) (cf logcoff_f64 i)) by (intros; apply l_fc; auto; apply (cw64 Q)).
    assert (Hp := l_fmadd HX HF nn fm Hk (K 1%nat ltac:(lia)) Hr (K 0%nat ltac:(lia))).
    assert (Hy := l_fmadd HX HF nn fm Hk (K 3%nat ltac:(lia)) Hr (K 2%nat ltac:(lia))).
    assert (Hy1 := l_fmadd HX HF nn fm Hk (K 4%nat ltac:(lia)) Hr2 Hy).
    exact (l_fmadd HX HF nn fm Hk (l_fmadd HX HF nn fm Hk Hy1 Hr2 Hp) Hr2 (lf_add HX HF nn Hy0 Hr)).
Qed.
(** exceptions *)
Definition finok (x : Z) : bool := if avx (xc X) then neq_oq w x (finf w) else flt w x (finf w).
Definition logex1 (y x : Z) : Z :=
  let y := if pn || he then (if finok x then y else x) else y in
  if he then
    let y := if feq w x 0 then fdiv nn f (fone w) (fsub nn f x x) else y in
    if flt w x 0 then fdiv nn f (fsub nn f x x) 0 else y
  else y.
Definition log1pex1 (y x : Z) : Z :=
  let y := if pn || he then (if finok x then y else x) else y in
  if he then
    let y := if lshr_bits m x =? 0 then x else y in
    let y := if feq w x (fminus1 w) then fdiv nn f (fone w) (fsub nn f x x) else y in
    if flt w x (fminus1 w) then fdiv nn f (fsub nn f x x) 0 else y
  else y.
Lemma finf_word : word w (finf w). Proof. unfold word. destruct (w_cases HX HF) as [-> | ->]; cbn; lia. Qed.
Lemma lm_finite k v x : L k v x -> LM k (isfinite_abs X v) (finok x).
Proof.
  intros Hv. pose proof (L_lt Hv) as Hk. unfold isfinite_abs, finok. destruct (avx (xc X)); apply lm_cmp; auto; apply l_fill; auto; apply finf_word.
Qed.
Lemma l_if (c : bool) k a b x y : (c = true -> L k a x) -> (c = false -> L k b y) -> L k (if c then a else b) (if c then x else y).
Proof. destruct c; auto. Qed.
Lemma if_testX (a b : vec) k mk vy vz (c : bool) : L k a vy -> (c = false -> vz = vy) -> L k b vz -> LM k mk c -> L k (if test_mask X mk then b else a) vz.
Proof.
  intros Ha Hz Hb Hm. destruct (test_mask X mk) eqn:E; auto.
  destruct Hm as (bs & Lbs & -> & Hc). apply (test_none HX) in E.
  rewrite Hz; auto. exact (proj1 (Forall_forall _ _) E c (nth_error_In _ _ Hc)).
Qed.
Lemma l_divzero k y x vy vx mk c : L k y vy -> L k x vx -> LM k mk c ->
  L k (if test_mask X mk then except_divzero X (ieee nn) false y x mk else y) (if c then fdiv nn f (fone w) (fsub nn f vx vx) else vy).
Proof.
  intros Hy Hx Hm. pose proof (L_lt Hy) as Hk. destruct cword as (_ & C2 & _). apply if_testX with (vy := vy) (c := c); auto. { intros ->. auto. }
  unfold except_divzero. cbv zeta. rewrite Z.add_0_l. apply l_blend; auto. exact (lf_div HX HF nn (@l_fill X k _ Hk C2) (lf_sub HX HF nn Hx Hx)).
Qed.
Lemma l_invalid k y x vy vx mk c : L k y vy -> L k x vx -> LM k mk c ->
  L k (if test_mask X mk then except_invalid X (ieee nn) y x mk else y) (if c then fdiv nn f (fsub nn f vx vx) 0 else vy).
Proof.
  intros Hy Hx Hm. pose proof (L_lt Hy) as Hk. apply if_testX with (vy := vy) (c := c); auto. { intros ->. auto. }
  unfold except_invalid. apply l_blend; auto. exact (lf_div HX HF nn (lf_sub HX HF nn Hx Hx) (l_zero HX Hk)).
Qed.
Lemma l_logex k y x vy vx : L k y vy -> L k x vx -> L k (log_excepts X pn he nn y x) (logex1 vy vx).
Proof.
  intros Hy Hx. pose proof (L_lt Hy) as Hk. unfold log_excepts, logex1. cbv zeta.
  set (y1 := if pn || he then blendv X x y (isfinite_abs X x) else y). set (u1 := if pn || he then if finok vx then vy else vx else vy).
  assert (H1 : L k y1 u1). { unfold y1, u1. apply l_if; auto. intros _. apply l_blend; auto. now apply lm_finite. }
  clearbody y1 u1. apply l_if; auto. intros _.
  assert (H2 := l_divzero H1 Hx (lmf_eq HX HF Hx (l_zero HX Hk))).
  exact (l_invalid H2 Hx (@lm_cmp X k (flt w) _ _ _ _ Hx (l_zero HX Hk))).
Qed.
Lemma l_log1pex k y x vy vx : L k y vy -> L k x vx -> L k (log1p_excepts X pn he nn y x) (log1pex1 vy vx).
Proof.
  intros Hy Hx. pose proof (L_lt Hy) as Hk. destruct cword as (_ & _ & C3 & _). unfold log1p_excepts, log1pex1. cbv zeta.
  set (y1 := if pn || he then blendv X x y (isfinite_abs X x) else y). set (u1 := if pn || he then if finok vx then vy else vx else vy).
  assert (H1 : L k y1 u1). { unfold y1, u1. apply l_if; auto. intros _. apply l_blend; auto. now apply lm_finite. }
  clearbody y1 u1. apply l_if; auto. intros _.
  assert (H1' := l_blend HX H1 Hx (lmi_eq HX (li_shiftr (mant_pos X HF) Hx) (li_zero HX Hk))).
  assert (H2 := l_divzero H1' Hx (lmf_eq HX HF Hx (@l_fill X k _ Hk C3))).
  exact (l_invalid H2 Hx (@lm_cmp X k (flt w) _ _ _ _ Hx (@l_fill X k _ Hk C3))).
Qed.
Lemma l_zero_at k c x y vx vy : word w c -> L k x vx -> L k y vy -> L k (zero_at X c x y) (if feq w vx c then 0 else vy).
Proof. intros Hc Hx Hy. pose proof (L_lt Hx) as Hk. unfold zero_at. apply l_seln; auto. apply lmf_eq; auto. apply l_fill; auto. Qed.

(** normalization *)
Definition lnorm1 (x : Z) : Z :=
  if w =? 32 then
    if (sgn w ((x - 0x800000) mod 2 ^ w) >? 0x7f000000 - 1) then (fmul nn f x 0x4b000000 - 23 * 2 ^ 23) mod 2 ^ w else x
  else
    if gtl X ((lshr_bits 48 x - 0x10) mod 2 ^ w) (0x7fe0 - 1) then (fmul nn f x 0x4330000000000000 - 52 * 2 ^ 52) mod 2 ^ w else x.
Lemma l_lnorm k x vx : L k x vx -> L k (log_normalize X nn x) (lnorm1 vx).
Proof.
  intros Hx. pose proof (L_lt Hx) as Hk. unfold log_normalize, lnorm1. rewrite esz_w. destruct (w_cases HX HF) as [Q | Q].
  - replace (w =? 32) with true by lia. cbv zeta. assert (C : forall c, 0 <= c < 2 ^ 31 -> L k (ifill (as_int X) c) c).
    { intros c Hc. rewrite <- (@wrap_id c) at 2 by (unfold word; rewrite Q; lia). apply li_ifill; auto. }
    assert (C1 : word w 0x4b000000) by (unfold word; rewrite Q; lia).
    assert (H := li_ifblend HX Hx (li_sub HX (ieee nn) (lf_mul HX HF nn Hx (@l_fill X k _ Hk C1)) (C (23 * 2 ^ 23) ltac:(lia)))
      (lmi_gt HX (li_sub HX (ieee nn) Hx (C 0x800000 ltac:(lia))) (C (0x7f000000 - 1) ltac:(lia)))).
    replace (sgn w (0x7f000000 - 1)) with (0x7f000000 - 1) in H by (rewrite Q; reflexivity). exact H.
  - replace (w =? 32) with false by lia. cbv zeta. assert (C : forall c, 0 <= c < 2 ^ 63 -> L k (ifill (as_int X) c) c).
    { intros c Hc. rewrite <- (@wrap_id c) at 2 by (unfold word; rewrite Q; lia). apply li_ifill; auto. }
    assert (C1 : word w 0x4330000000000000) by (unfold word; rewrite Q; lia).
    exact (li_ifblend HX Hx (li_sub HX (ieee nn) (lf_mul HX HF nn Hx (@l_fill X k _ Hk C1)) (C (52 * 2 ^ 52) ltac:(lia)))
      (lm_gtl HX (li_sub HX (ieee nn) (li_shiftr (k := k) (X := X) (n := 48) ltac:(lia) Hx) (C 0x10 ltac:(lia))) (C (0x7fe0 - 1) ltac:(lia)))).
Qed.
Lemma wf_from a v : wfv X a -> (forall k x, L k a x -> exists y, L k v y) -> wfv X v.
Proof. intros Ha H. pose proof (ext_pos HX) as He. destruct (L_all HX Ha He) as [x Hx]. destruct (H _ _ Hx) as [y Hy]. exact (L_wf Hy). Qed.

Definition log1 (x : Z) : Z := logex1 (if feq w x (fone w) then 0 else elog1 (lnorm1 x)) x.
Theorem k_log_lw : lanewise (k_log X fm pn he nn) log1.
Proof.
  intros a Ha. destruct cword as (_ & C2 & _).
  destruct (@eval_log_lw (log_normalize X nn a)) as (u & E & Wu & Hu). { apply (wf_from Ha). intros. eexists. apply l_lnorm. eauto. }
  unfold k_log. rewrite E. cbn [bind]. eexists. split; [reflexivity|].
  assert (H : forall k v, L k a v -> L k (log_excepts X pn he nn (zero_at X (fone w) a u) a) (log1 v)).
  { intros k v Hv. apply l_logex; auto. apply l_zero_at; auto. apply Hu. now apply l_lnorm. }
  split; auto. apply (wf_from Ha). eauto.
Qed.
Definition log2l (x : Z) : Z := logex1 (if feq w x (fone w) then 0 else log2_1 (lnorm1 x)) x.
Theorem k_log2_lw : lanewise (k_log2 X fm pn he nn) log2l.
Proof.
  intros a Ha. destruct bits_range as [B1 B2]. destruct cword as (C1 & C2 & C3 & C4 & C5 & _).
  destruct (@log_reduce_ok (log2tab_bits w) (log2tab w) (log_normalize X nn a) B2) as (ic & lc & z & kf & E & (W1 & W2 & W3 & W4) & H); auto.
  { unfold mant in B2. destruct (w_cases HX HF) as [Q | Q]; rewrite Q in *; cbn in *; lia. } { apply log2tab_ok. }
  { apply (wf_from Ha). intros. eexists. apply l_lnorm. eauto. }
  unfold k_log2. cbv zeta. rewrite E. cbn [bind]. clear E. eexists. split; [reflexivity|].
  match goal with |- wfv X ?K /\ _ => assert (T : forall k v, L k a v -> L k K (log2l v)) end; [|split; [apply (wf_from Ha); eauto|exact T]].
  intros k v Hv. apply l_logex; auto. apply l_zero_at; auto. pose proof (L_lt Hv) as Hk.
  destruct (H _ _ (l_lnorm Hv)) as (H1 & H2 & H3 & H4). set (ix := lnorm1 v) in *.
  assert (Hr := l_fmadd HX HF nn fm Hk H3 H1 (@l_fill X k _ Hk C3)). assert (Hr2 := lf_mul HX HF nn Hr Hr).
  unfold log2_1. cbv zeta. rewrite esz_w. destruct (w_cases HX HF) as [Q | Q].
  - replace (w =? 32) with true by lia.
    assert (K : forall i, (i < 4)%nat -> L k (fc X log2coff_f32 i) (cf log2coff_f32 i)) by (intros; apply l_fc; auto; apply (cw32 Q)).
    assert (Hp := l_fmadd HX HF nn fm Hk (K 3%nat ltac:(lia)) Hr (lf_add HX HF nn H2 H4)).
    assert (Hy := l_fmadd HX HF nn fm Hk (K 1%nat ltac:(lia)) Hr (K 2%nat ltac:(lia))).
    exact (l_fmadd HX HF nn fm Hk (l_fmadd HX HF nn fm Hk (K 0%nat ltac:(lia)) Hr2 Hy) Hr2 Hp).
  - replace (w =? 32) with false by lia.
    assert (K : forall i, (i < 6)%nat -> L k (fc X log2coff_f64 i) (cf log2coff_f64 i)) by (intros; apply l_fc; auto; apply (cw64 Q)).
    assert (T1 := lf_mul HX HF nn Hr (@l_fill X k _ Hk C4)).
    assert (T2 := l_fmadd HX HF nn fm Hk Hr (@l_fill X k _ Hk C5) (l_fmsub HX HF nn fm Hk Hr (@l_fill X k _ Hk C4) T1)).
    assert (T3 := lf_add HX HF nn H2 H4). assert (Hi := lf_add HX HF nn T3 T1).
    assert (Lo := lf_add HX HF nn (lf_sub HX HF nn T3 Hi) (lf_add HX HF nn T1 T2)).
    assert (Hr4 := lf_mul HX HF nn Hr2 Hr2).
    assert (P := l_fmadd HX HF nn fm Hk Hr (K 3%nat ltac:(lia)) (K 2%nat ltac:(lia))).
    assert (Y1 := l_fmadd HX HF nn fm Hk (K 5%nat ltac:(lia)) Hr (K 4%nat ltac:(lia))).
    assert (Y2 := l_fmadd HX HF nn fm Hk Hr4 Y1 (K 0%nat ltac:(lia))).
    assert (Y3 := l_fmadd HX HF nn fm Hk Hr (K 1%nat ltac:(lia)) Y2).
    assert (Y4 := l_fmadd HX HF nn fm Hk Hr2 (l_fmadd HX HF nn fm Hk Hr2 P Y3) Hi).
    exact (lf_add HX HF nn Lo Y4).
Qed.

(** log10 *)
Definition sub10 (x : Z) : bool := if w =? 32 then (0x800000 >? sgn w x) else (0x10 * 2 ^ 48 >? sgn w (lshr_bits 48 x)).
Definition k10 (x : Z) : Z := (0 - (if sub10 x then m + 2 else 0)) mod 2 ^ w.
Definition ix10 (x : Z) : Z := if sub10 x then fmul nn f x (exp_mult w) else x.
Definition kk10 (x : Z) : Z := (k10 x + (lshr_bits m (ix10 x) - exp_off w) mod 2 ^ w) mod 2 ^ w.
Definition sk10 (x : Z) : Z := lshr_bits (w - 1) (kk10 x).
Definition iy10 (x : Z) : Z := Z.lor (Z.land (ix10 x) (2 ^ m - 1)) (shl_bits w m ((exp_off w - sk10 x) mod 2 ^ w)).
Definition ev10 (x : Z) : Z :=
  let y := lcvt ((kk10 x + sk10 x) mod 2 ^ w) in
  let z := fmul nn f (c_ivln10 w) (elog1 (iy10 x)) in
  fma y (c_log10_2h w) (fma y (c_log10_2l w) z).
Definition log10_1 (x : Z) : Z := logex1 (if feq w x (fone w) then 0 else ev10 x) x.
Lemma li_const k c : (k < ext X)%nat -> word w c -> L k (ifill (as_int X) c) c.
Proof. intros Hk Hc. rewrite <- (@wrap_id c) at 2 by auto. apply li_ifill; auto. Qed.
Theorem k_log10_lw : lanewise (k_log10 X fm pn he nn) log10_1.
Proof.
  intros a Ha. destruct cword as (C1 & C2 & C3 & C4 & C5 & C6 & C7 & C8). destruct (cw HX HF) as (CW & _).
  assert (Wi : word w (exp_off w) /\ word w (m + 2) /\ word w (2 ^ m - 1)). { unfold word. destruct (w_cases HX HF) as [-> | ->]; cbn; lia. }
  destruct Wi as (Wi1 & Wi2 & Wi3). pose proof (mant_pos X HF) as Hm.
  unfold k_log10. cbv zeta.
  set (msk := if (esz (xT X) =? 4)%nat then _ else _).
  set (kv := if test_mask (as_int X) msk then v_sub (as_int X) (ieee nn) (zerov (as_int X)) (v_and msk (ifill (as_int X) (m + 2))) else zerov (as_int X)).
  set (xv := if test_mask (as_int X) msk then blendv (as_int X) a (v_mul X (ieee nn) a (v_fill X (exp_mult w))) msk else a).
  replace (if test_mask (as_int X) msk then (v_sub (as_int X) (ieee nn) (zerov (as_int X)) (v_and msk (ifill (as_int X) (m + 2))),
    blendv (as_int X) a (v_mul X (ieee nn) a (v_fill X (exp_mult w))) msk) else (zerov (as_int X), a)) with (kv, xv).
  2:{ unfold kv, xv. now destruct (test_mask (as_int X) msk). }
  cbv iota beta.
  assert (HM : forall k v, L k a v -> LM k msk (sub10 v)).
  { intros k v Hv. pose proof (L_lt Hv) as Hk. unfold msk, sub10. rewrite esz_w. destruct (w_cases HX HF) as [Q | Q].
    - replace (w =? 32) with true by lia. assert (W : word w 0x800000) by (unfold word; rewrite Q; lia).
      assert (H := lmi_gt HX (li_const Hk W) Hv). replace (sgn w 0x800000) with 0x800000 in H by (rewrite Q; reflexivity). exact H.
    - replace (w =? 32) with false by lia. assert (W : word w (0x10 * 2 ^ 48)) by (unfold word; rewrite Q; lia).
      assert (H := lmi_gt HX (li_const Hk W) (li_shiftr (k := k) (X := X) (n := 48) ltac:(lia) Hv)).
      replace (sgn w (0x10 * 2 ^ 48)) with (0x10 * 2 ^ 48) in H by (rewrite Q; reflexivity). exact H. }
  assert (HK : forall k v, L k a v -> L k kv (k10 v)).
  { intros k v Hv. pose proof (L_lt Hv) as Hk. unfold kv, k10. apply (if_test HX) with (vy := 0) (c := sub10 v); auto.
    - apply li_zero; auto. - intros ->. apply Z.mod_small. split; [lia|]. apply pow2_pos. pose proof (w_pos HX); lia.
    - apply li_sub; auto. apply li_zero; auto. apply (l_sel HX (HM _ _ Hv)). apply li_const; auto. }
  assert (HXv : forall k v, L k a v -> L k xv (ix10 v)).
  { intros k v Hv. pose proof (L_lt Hv) as Hk. unfold xv, ix10. apply li_ifblend; auto. apply lf_mul; auto. apply l_fill; auto. }
  clearbody kv xv msk.
  set (k2 := v_add (as_int X) (ieee nn) kv _).
  assert (HK2 : forall k v, L k a v -> L k k2 (kk10 v)).
  { intros k v Hv. pose proof (L_lt Hv) as Hk. unfold k2, kk10. apply li_add; auto. apply li_sub; auto. apply li_shiftr; auto. apply li_const; auto. }
  clearbody k2. set (sk := c_shiftr (as_int X) (w - 1) k2).
  assert (HS : forall k v, L k a v -> L k sk (sk10 v)).
  { intros k v Hv. unfold sk, sk10. apply li_shiftr; auto. pose proof (w_pos HX); lia. }
  clearbody sk. set (iy := v_or _ _).
  assert (HI : forall k v, L k a v -> L k iy (iy10 v)).
  { intros k v Hv. pose proof (L_lt Hv) as Hk. unfold iy, iy10. apply l_or; auto. apply l_and; auto. apply li_const; auto. apply li_shiftl; auto. apply li_sub; auto. apply li_const; auto. }
  clearbody iy.
  destruct (@eval_log_lw iy) as (u & E & Wu & Hu). { apply (wf_from Ha). eauto. }
  rewrite E. cbn [bind]. eexists. split; [reflexivity|].
  match goal with |- wfv X ?K /\ _ => assert (T : forall k v, L k a v -> L k K (log10_1 v)) end; [|split; [apply (wf_from Ha); eauto|exact T]].
  intros k v Hv. pose proof (L_lt Hv) as Hk. apply l_logex; auto. apply l_zero_at; auto.
  assert (Y := l_cvt (li_add HX (ieee nn) (HK2 _ _ Hv) (HS _ _ Hv))).
  assert (Z1 := lf_mul HX HF nn (@l_fill X k _ Hk C6) (Hu _ _ (HI _ _ Hv))).
  exact (l_fmadd HX HF nn fm Hk Y (@l_fill X k _ Hk C8) (l_fmadd HX HF nn fm Hk Y (@l_fill X k _ Hk C7) Z1)).
Qed.

(** log1p *)
Definition rlim : Z := if w =? 32 then 0xbe95f61a else 0xbfd2bec4.
Definition koff : Z := if w =? 32 then 0x4afb0d else 0x95f62 * 2 ^ 32.
Definition kbias : Z := if w =? 32 then 0x7d else 0x3fd.
Definition ev1p (x : Z) : Z :=
  let u := fadd nn f x (fone w) in
  let k := (lshr_bits m ((u + koff) mod 2 ^ w) - kbias) mod 2 ^ w in
  let c0 := fsub nn f (fone w) (fsub nn f u x) in
  let c1 := fsub nn f x (fsub nn f u (fone w)) in
  let c := if (0 >? sgn w k) then c1 else c0 in
  let exact_mask := (sgn w k >? m - 1) || (sgn w rlim >? sgn w x) in
  let c := if exact_mask then 0 else c in
  fadd nn f (elog1 u) (fdiv nn f c u).
Definition log1p1 (x : Z) : Z := log1pex1 (if feq w x 0 then 0 else ev1p x) x.
Theorem k_log1p_lw : lanewise (k_log1p X fm pn he nn) log1p1.
Proof.
  intros a Ha. destruct cword as (C1 & C2 & _).
  assert (Wi : word w rlim /\ word w koff /\ word w kbias /\ word w (m - 1) /\ sgn w (m - 1) = m - 1 /\ sgn w 0 = 0).
  { unfold word, rlim, koff, kbias. destruct (w_cases HX HF) as [-> | ->]; cbn; lia. }
  destruct Wi as (Wi1 & Wi2 & Wi3 & Wi4 & Es & E0). pose proof (mant_pos X HF) as Hm.
  unfold k_log1p. cbv zeta. fold rlim koff kbias.
  set (u := v_add X (ieee nn) a (v_fill X (fone w))).
  assert (HU : forall k v, L k a v -> L k u (fadd nn f v (fone w))).
  { intros k v Hv. pose proof (L_lt Hv) as Hk. apply lf_add; auto. apply l_fill; auto. }
  clearbody u. destruct (@eval_log_lw u) as (e & E & We & He). { apply (wf_from Ha). eauto. }
  rewrite E. cbn [bind]. eexists. split; [reflexivity|].
  match goal with |- wfv X ?K /\ _ => assert (T : forall k v, L k a v -> L k K (log1p1 v)) end; [|split; [apply (wf_from Ha); eauto|exact T]].
  intros k v Hv. pose proof (L_lt Hv) as Hk. apply l_log1pex; auto. apply l_zero_at; auto. { apply word_0. pose proof (w_pos HX); lia. }
  unfold ev1p. cbv zeta. specialize (HU _ _ Hv). specialize (He _ _ HU). set (vu := fadd nn f v (fone w)) in *.
  assert (F1 := @l_fill X k _ Hk C2).
  assert (K := li_sub HX (ieee nn) (li_shiftr Hm (li_add HX (ieee nn) HU (li_const Hk Wi2))) (li_const Hk Wi3)).
  set (vk := (lshr_bits m ((vu + koff) mod 2 ^ w) - kbias) mod 2 ^ w) in *.
  assert (A0 := lf_sub HX HF nn F1 (lf_sub HX HF nn HU Hv)). assert (A1 := lf_sub HX HF nn Hv (lf_sub HX HF nn HU F1)).
  assert (M0 := lmi_gt HX (li_zero HX Hk) K). rewrite E0 in M0.
  assert (M1 := lm_or HX (lmi_gt HX K (li_const Hk Wi4)) (lmi_gt HX (li_const Hk Wi1) Hv)). rewrite Es in M1.
  exact (lf_add HX HF nn He (lf_div HX HF nn (l_seln HX M1 (l_blend HX A0 A1 M0)) HU)).
Qed.
End Log.
