(** C39: CPU feature queries. Specification, theorems, refutations. *)
From Coq Require Import ZArith List Bool Lia String Ascii.
From Verif Require Import Base Cpuid.
Import ListNotations.
Local Open Scope Z_scope.

(** * Specification (Intel SDM vol. 2 CPUID, vol. 1 ch. 13-15), independent of the model's helpers *)

(** Where the processor reports a feature: leaf, register, bit. [XSAVE] is the "usable by programs" bit OSXSAVE. *)
Inductive rname := EBX | ECX | EDX.
Definition where_reported (f : feature) : Z * rname * Z :=
  match f with
  | MSR => (1, EDX, 5) | CX8 => (1, EDX, 8) | SEP => (1, EDX, 11) | CMOV => (1, EDX, 15) | CLFSH => (1, EDX, 19)
  | XSAVE => (1, ECX, 27) | F16C => (1, ECX, 29) | CMPXCHG16B => (1, ECX, 13)
  | SSE => (1, EDX, 25) | SSE2 => (1, EDX, 26) | SSE3 => (1, ECX, 0) | SSSE3 => (1, ECX, 9)
  | SSE4_1 => (1, ECX, 19) | SSE4_2 => (1, ECX, 20) | AVX => (1, ECX, 28) | AVX2 => (7, EBX, 5) | FMA => (1, ECX, 12)
  | AVX512F => (7, EBX, 16) | AVX512CD => (7, EBX, 28) | AVX512BW => (7, EBX, 30) | AVX512DQ => (7, EBX, 17)
  | AVX512VL => (7, EBX, 31)
  end.
Definition reg_of (r : regs) (n : rname) : Z := match n with EBX => ebx r | ECX => ecx r | EDX => edx r end.
(** The processor reports [f] (sub-leaf 0) *)
Definition cpu_reports (m : machine) (f : feature) : Prop :=
  let '(leaf, r, b) := where_reported f in
  leaf <= eax (hw m 0 0) /\ Z.testbit (reg_of (hw m leaf 0) r) b = true.
(** Which XCR0 components a feature's registers need: x87/SSE = 1, AVX = 2, opmask/ZMM = 5,6,7. *)
Definition xcr0_needs (f : feature) : list Z :=
  match f with
  | MSR | CX8 | SEP | CMOV | CLFSH | XSAVE | CMPXCHG16B => []
  | SSE | SSE2 | SSE3 | SSSE3 | SSE4_1 | SSE4_2 => [1]
  | AVX | AVX2 | FMA | F16C => [1; 2]
  | AVX512F | AVX512CD | AVX512BW | AVX512DQ | AVX512VL => [1; 2; 5; 6; 7]
  end.
(** The operating system manages extended state with XSAVE *)
Definition osxsave (m : machine) : Prop := cpu_reports m XSAVE.
Definition xcr0_enabled (m : machine) (f : feature) : Prop := forall b, In b (xcr0_needs f) -> Z.testbit (xcr0 m) b = true.

(** Register contents are 32-bit words; leaves 0 and 1 have no sub-leaves. *)
Definition machine_ok (m : machine) : Prop :=
  (forall l s, word 32 (eax (hw m l s)) /\ word 32 (ebx (hw m l s)) /\ word 32 (ecx (hw m l s)) /\ word 32 (edx (hw m l s))) /\
  word 32 (xcr0 m) /\
  (forall s, hw m 0 s = hw m 0 0 /\ hw m 1 s = hw m 1 0).
(** The compiler happened to leave 0 in ecx before the cpuid instruction for leaf 7. *)
Definition subleaf_zero (m : machine) : Prop := junk m 7 = 0.

(** * Lemmas *)
Lemma testbit_pow2 : forall p i, 0 <= p -> Z.testbit (2 ^ p) i = (i =? p).
Proof. intros. rewrite Z.pow2_bits_eqb by lia. now rewrite Z.eqb_sym. Qed.

Lemma land_pow2 : forall x p, 0 <= p -> negb (Z.land x (2 ^ p) =? 0) = Z.testbit x p.
Proof.
  intros x p Hp. destruct (Z.testbit x p) eqn:E.
  - destruct (Z.eqb_spec (Z.land x (2 ^ p)) 0) as [H|H]; [|reflexivity].
    assert (Z.testbit (Z.land x (2 ^ p)) p = true) as C
      by (rewrite Z.land_spec, E, testbit_pow2, Z.eqb_refl by lia; reflexivity).
    rewrite H, Z.bits_0 in C. discriminate.
  - replace (Z.land x (2 ^ p)) with 0; [reflexivity|].
    apply Z.bits_inj'. intros n Hn. rewrite Z.bits_0, Z.land_spec, testbit_pow2 by lia.
    destruct (Z.eqb_spec n p); [subst; now rewrite E|now rewrite andb_false_r].
Qed.

Lemma wrap_bit : forall b p, 0 <= p < 32 -> wrap 32 (Z.shiftl (Z.b2z b) p) = if b then 2 ^ p else 0.
Proof.
  intros b p Hp. rewrite Z.shiftl_mul_pow2 by lia. unfold wrap. destruct b; cbn [Z.b2z].
  - rewrite Z.mul_1_l. apply Z.mod_small. split; [lia|]. apply Z.pow_lt_mono_r; lia.
  - reflexivity.
Qed.

Lemma test_bit_spec : forall x p, 0 <= p < 32 -> test_bit x p = Z.testbit x p.
Proof.
  intros x p Hp. unfold test_bit. change 1 with (Z.b2z true). rewrite wrap_bit by lia. apply land_pow2; lia.
Qed.

Lemma mask_bit_spec : forall x p b i, word 32 x -> 0 <= p < 32 -> 0 <= i ->
  Z.testbit (mask_bit x p b) i = Z.testbit x i && (negb (i =? p) || b).
Proof.
  intros x p b i Hx Hp Hi. unfold mask_bit. rewrite wrap_bit by lia.
  rewrite Z.land_spec, Z.lxor_spec. change (2 ^ 32 - 1) with (Z.ones 32).
  destruct (Z.ltb_spec i 32) as [Hlt|Hge].
  - rewrite Z.ones_spec_low by lia. destruct b; cbn [negb].
    + rewrite Z.bits_0. cbn. now rewrite orb_true_r.
    + rewrite testbit_pow2 by lia. rewrite orb_false_r. destruct (i =? p); reflexivity.
  - assert (Z.testbit x i = false) as ->; [|reflexivity].
    destruct Hx. destruct (Z.eq_dec x 0) as [->|]; [apply Z.bits_0|].
    apply Z.bits_above_log2; [lia|]. apply Z.log2_lt_pow2; [lia|].
    eapply Z.lt_le_trans; [eassumption|]. apply Z.pow_le_mono_r; lia.
Qed.

Lemma mask_bit_word : forall x p b, word 32 x -> word 32 (mask_bit x p b).
Proof.
  intros x p b [H0 H1]. unfold mask_bit, word.
  assert (0 <= Z.land x (Z.lxor (wrap 32 (Z.shiftl (Z.b2z (negb b)) p)) (2 ^ 32 - 1))) by (apply Z.land_nonneg; lia).
  split; [lia|].
  destruct (Z.eq_dec (Z.land x (Z.lxor (wrap 32 (Z.shiftl (Z.b2z (negb b)) p)) (2 ^ 32 - 1))) 0) as [->|]; [lia|].
  apply Z.log2_lt_pow2; [lia|]. eapply Z.le_lt_trans; [apply Z.log2_land; try lia|].
  - destruct (Z.le_gt_cases 0 (Z.lxor (wrap 32 (Z.shiftl (Z.b2z (negb b)) p)) (2 ^ 32 - 1))) as [|C]; [assumption|].
    apply Z.lxor_nonneg. assert (0 <= wrap 32 (Z.shiftl (Z.b2z (negb b)) p)) by (apply Z.mod_pos_bound; lia).
    split; lia.
  - eapply Z.le_lt_trans; [apply Z.le_min_l|].
    destruct (Z.eq_dec x 0) as [->|]; [reflexivity|]. apply Z.log2_lt_pow2; lia.
Qed.

Lemma land_all : forall x y, 0 <= y -> (Z.land x y =? y) = true <-> (forall i, 0 <= i -> Z.testbit y i = true -> Z.testbit x i = true).
Proof.
  intros x y Hy. rewrite Z.eqb_eq. split.
  - intros H i Hi T. rewrite <- H in T. rewrite Z.land_spec in T. now apply andb_true_iff in T.
  - intros H. apply Z.bits_inj'. intros n Hn. rewrite Z.land_spec.
    destruct (Z.testbit y n) eqn:E; [now rewrite (H n Hn E)|now rewrite andb_false_r].
Qed.

Lemma bits_of_6 : forall i, 0 <= i -> Z.testbit 6 i = true -> In i [1; 2].
Proof.
  intros i Hi T. destruct (Z.ltb_spec i 3).
  - assert (i = 0 \/ i = 1 \/ i = 2) as [-> | [-> | ->]] by lia; cbn in *; auto; discriminate.
  - rewrite Z.bits_above_log2 in T by (cbn; lia). discriminate.
Qed.
Lemma bits_of_230 : forall i, 0 <= i -> Z.testbit 230 i = true -> In i [1; 2; 5; 6; 7].
Proof.
  intros i Hi T. destruct (Z.ltb_spec i 8).
  - assert (i = 0 \/ i = 1 \/ i = 2 \/ i = 3 \/ i = 4 \/ i = 5 \/ i = 6 \/ i = 7) as D by lia.
    decompose [or] D; subst; cbn in *; auto 8; discriminate.
  - rewrite Z.bits_above_log2 in T by (cbn; lia). discriminate.
Qed.

Ltac wrd := repeat apply mask_bit_word; assumption.
Ltac mb := repeat (rewrite mask_bit_spec by (try wrd; lia));
  cbn [Z.eqb Pos.eqb negb orb]; rewrite ?andb_true_r, ?orb_false_r.

Section M.
Variable m : machine.
Hypothesis HM : machine_ok m.

Lemma leaf01 : forall s, hw m 0 s = hw m 0 0 /\ hw m 1 s = hw m 1 0.
Proof. exact (proj2 (proj2 HM)). Qed.

(** bit [b] of the raw flag words before masking *)
Definition raw1 (sel : regs -> Z) := if 1 <=? eax (hw m 0 0) then sel (hw m 1 0) else 0.
Definition raw7 := if 7 <=? eax (hw m 0 0) then ebx (hw m 7 (junk m 7)) else 0.

Lemma raw1_word : forall sel, (sel = ecx \/ sel = edx) -> word 32 (raw1 sel).
Proof.
  intros sel H. unfold raw1. destruct (1 <=? _); [|split; lia].
  destruct (proj1 HM 1 0) as (_ & _ & A & B). destruct H as [-> | ->]; assumption.
Qed.
Lemma raw7_word : word 32 raw7.
Proof.
  unfold raw7. destruct (7 <=? _); [|split; lia].
  destruct (proj1 HM 7 (junk m 7)) as (_ & A & _ & _). assumption.
Qed.

Lemma raw1_spec : forall sel b, Z.testbit (raw1 sel) b = true <-> 1 <= eax (hw m 0 0) /\ Z.testbit (sel (hw m 1 0)) b = true.
Proof.
  intros. unfold raw1. destruct (Z.leb_spec 1 (eax (hw m 0 0))); [intuition|].
  rewrite Z.bits_0. split; [discriminate|intros []; lia].
Qed.
Lemma raw7_spec : forall b, subleaf_zero m -> (Z.testbit raw7 b = true <-> 7 <= eax (hw m 0 0) /\ Z.testbit (ebx (hw m 7 0)) b = true).
Proof.
  intros b Z0. unfold raw7. rewrite Z0. destruct (Z.leb_spec 7 (eax (hw m 0 0))); [intuition|].
  rewrite Z.bits_0. split; [discriminate|intros []; lia].
Qed.

Definition sse_ok := negb (Z.land (xcr0 m) 2 =? 0).
Definition avx_ok := Z.land (xcr0 m) 6 =? 6.
Definition avx512_ok := if apple m then apple_avx512 m else Z.land (xcr0 m) 230 =? 230.

Definition os_ok (f : feature) : bool :=
  match f with
  | MSR | CX8 | SEP | CMOV | CLFSH | XSAVE | CMPXCHG16B | F16C => true
  | SSE | SSE2 | SSE3 | SSSE3 | SSE4_1 | SSE4_2 => sse_ok
  | AVX | AVX2 | FMA => avx_ok
  | AVX512F | AVX512CD | AVX512BW | AVX512DQ | AVX512VL => avx512_ok
  end.
Definition os_legacy (f : feature) : bool :=
  match f with
  | SSE => os_sse m | SSE2 => os_sse2 m | SSE3 => os_sse3 m | SSSE3 => os_ssse3 m
  | SSE4_1 => os_sse41 m | SSE4_2 => os_sse42 m | _ => true
  end.
Definition raw_bit (f : feature) : bool :=
  let '(leaf, r, b) := where_reported f in
  Z.testbit (match r with ECX => raw1 ecx | EDX => raw1 edx | EBX => raw7 end) b.

Lemma has_char : forall f, has (cpuid_ctor m) f =
  raw_bit f && (if raw_bit XSAVE then os_ok f else os_legacy f).
Proof.
  intros f. unfold cpuid_ctor, platform_cpuid.
  destruct (leaf01 (junk m 0)) as [-> _]. destruct (leaf01 (junk m 1)) as [_ ->].
  fold (raw1 ecx) (raw1 edx) raw7.
  pose proof (raw1_word ecx (or_introl eq_refl)) as Wc.
  pose proof (raw1_word edx (or_intror eq_refl)) as Wd.
  pose proof raw7_word as W7.
  rewrite (test_bit_spec (raw1 ecx) 27) by lia.
  fold sse_ok avx_ok avx512_ok.
  change (raw_bit XSAVE) with (Z.testbit (raw1 ecx) 27).
  destruct (Z.testbit (raw1 ecx) 27) eqn:E;
    destruct f; cbn [has l1_ecx l1_edx l7_ebx os_ok os_legacy]; rewrite test_bit_spec by lia;
    unfold raw_bit; cbn [where_reported]; mb; reflexivity.
Qed.

Lemma sse_ok_spec : sse_ok = true <-> Z.testbit (xcr0 m) 1 = true.
Proof. unfold sse_ok. change 2 with (2 ^ 1). rewrite land_pow2 by lia. reflexivity. Qed.
Lemma avx_ok_spec : avx_ok = true <-> (forall b, In b [1; 2] -> Z.testbit (xcr0 m) b = true).
Proof.
  unfold avx_ok. rewrite land_all by lia. split.
  - intros H b [<- | [<- | []]]; apply H; reflexivity || lia.
  - intros H i Hi T. apply H, bits_of_6; auto.
Qed.
Lemma avx512_ok_spec : apple m = false -> avx512_ok = true <-> (forall b, In b [1; 2; 5; 6; 7] -> Z.testbit (xcr0 m) b = true).
Proof.
  intros A. unfold avx512_ok. rewrite A. rewrite land_all by lia. split.
  - intros H b [<- | [<- | [<- | [<- | [<- | []]]]]]; apply H; reflexivity || lia.
  - intros H i Hi T. apply H, bits_of_230; auto.
Qed.

Lemma raw_bit_spec : subleaf_zero m -> forall f, raw_bit f = true <-> cpu_reports m f.
Proof.
  intros Z0 f. unfold raw_bit, cpu_reports.
  destruct f; cbn [where_reported reg_of]; (apply raw1_spec || now apply raw7_spec).
Qed.
End M.

(** * C39 *)

(** Main theorem: with an OS that uses XSAVE, every query except F16C answers exactly "reported and enabled"
    (Apple builds ask sysctl about AVX-512 instead of XCR0). *)
Theorem C39_has_iff_cpu_and_os_partial : forall m f,
  machine_ok m -> subleaf_zero m -> apple m = false -> osxsave m -> f <> F16C ->
  (has (cpuid_ctor m) f = true <-> cpu_reports m f /\ xcr0_enabled m f).
Proof.
  intros m f HM Z0 HA HX HF. rewrite has_char by assumption.
  apply (raw_bit_spec m Z0) in HX. rewrite HX. rewrite andb_true_iff.
  rewrite (raw_bit_spec m Z0). apply and_iff_compat_l. unfold xcr0_enabled.
  destruct f; cbn [os_ok xcr0_needs]; try congruence;
    try (split; [intros _ b []|reflexivity]);
    try (now apply avx_ok_spec); try (now apply avx512_ok_spec);
    (rewrite sse_ok_spec; split; [intros H b [<- | []]; exact H|intros H; apply H; now left]).
Qed.
Print Assumptions C39_has_iff_cpu_and_os_partial.

(** For every build: no query is ever true of a feature the processor does not report. *)
Theorem C39_reported : forall m f, machine_ok m -> subleaf_zero m -> has (cpuid_ctor m) f = true -> cpu_reports m f.
Proof.
  intros m f HM Z0 H. rewrite has_char in H by assumption. apply andb_true_iff in H.
  now apply (raw_bit_spec m Z0).
Qed.
Print Assumptions C39_reported.

(** Without OSXSAVE: the SSE family is exactly "reported and the OS says yes". *)
Definition sse_family (f : feature) : Prop := In f [SSE; SSE2; SSE3; SSSE3; SSE4_1; SSE4_2].
Definition os_says (m : machine) (f : feature) : bool :=
  match f with
  | SSE => os_sse m | SSE2 => os_sse2 m | SSE3 => os_sse3 m | SSSE3 => os_ssse3 m
  | SSE4_1 => os_sse41 m | SSE4_2 => os_sse42 m | _ => false
  end.
Theorem C39_legacy_sse : forall m f,
  machine_ok m -> ~ osxsave m -> sse_family f ->
  (has (cpuid_ctor m) f = true <-> cpu_reports m f /\ os_says m f = true).
Proof.
  intros m f HM HX HF. rewrite has_char by assumption.
  assert (Z.testbit (raw1 m ecx) 27 = false) as E.
  { destruct (Z.testbit (raw1 m ecx) 27) eqn:E; [|reflexivity]. exfalso. apply HX. now apply raw1_spec. }
  change (raw_bit m XSAVE) with (Z.testbit (raw1 m ecx) 27). rewrite E, andb_true_iff.
  unfold raw_bit, cpu_reports.
  destruct HF as [<- | [<- | [<- | [<- | [<- | [<- | []]]]]]]; cbn [where_reported reg_of os_legacy os_says];
    rewrite raw1_spec; reflexivity.
Qed.
Print Assumptions C39_legacy_sse.

(** Without OSXSAVE the AVX, FMA, F16C and AVX-512 queries are not masked at all: they answer what the processor
    reports although no AVX state can be enabled. *)
Theorem C39_legacy_avx_unmasked : forall m f,
  machine_ok m -> subleaf_zero m -> ~ osxsave m -> ~ sse_family f ->
  (has (cpuid_ctor m) f = true <-> cpu_reports m f).
Proof.
  intros m f HM Z0 HX HF. rewrite has_char by assumption.
  assert (raw_bit m XSAVE = false) as ->.
  { destruct (raw_bit m XSAVE) eqn:E; [|reflexivity]. exfalso. apply HX. now apply (raw_bit_spec m Z0). }
  rewrite andb_true_iff, (raw_bit_spec m Z0).
  destruct f; cbn [os_legacy]; try tauto; exfalso; apply HF; cbn; tauto.
Qed.
Print Assumptions C39_legacy_avx_unmasked.

(** Vendor queries: exactly the two vendor strings, in the order ebx, edx, ecx. *)
Theorem C39_vendor : forall m, machine_ok m ->
  (m_is_intel (cpuid_ctor m) = true <-> ebx (hw m 0 0) = 1970169159 /\ edx (hw m 0 0) = 1231384169 /\ ecx (hw m 0 0) = 1818588270) /\
  (m_is_amd (cpuid_ctor m) = true <-> ebx (hw m 0 0) = 1752462657 /\ edx (hw m 0 0) = 1769238117 /\ ecx (hw m 0 0) = 1145913699).
Proof.
  intros m HM.
  assert (m_is_intel (cpuid_ctor m) = sv_eq (bytes4 (ebx (hw m 0 0)) ++ bytes4 (edx (hw m 0 0)) ++ bytes4 (ecx (hw m 0 0))) (chars "GenuineIntel")) as ->.
  { unfold cpuid_ctor, platform_cpuid. rewrite (proj1 (leaf01 m HM (junk m 0))). now destruct (test_bit _ _). }
  assert (m_is_amd (cpuid_ctor m) = sv_eq (bytes4 (ebx (hw m 0 0)) ++ bytes4 (edx (hw m 0 0)) ++ bytes4 (ecx (hw m 0 0))) (chars "AuthenticAMD")) as ->.
  { unfold cpuid_ctor, platform_cpuid. rewrite (proj1 (leaf01 m HM (junk m 0))). now destruct (test_bit _ _). }
  destruct (proj1 HM 0 0) as (_ & B & C & D).
  assert (inj : forall x y, word 32 x -> word 32 y -> bytes4 x = bytes4 y -> x = y).
  { assert (E : forall x, word 32 x -> x = x mod 256 + 256 * (x / 256 mod 256) + 65536 * (x / 65536 mod 256) + 16777216 * (x / 16777216 mod 256)).
    { intros x [H0 H1]. change (2 ^ 32) with 4294967296 in H1.
      pose proof (Z.div_mod x 256 ltac:(lia)). pose proof (Z.div_mod (x / 256) 256 ltac:(lia)).
      pose proof (Z.div_mod (x / 65536) 256 ltac:(lia)).
      assert (x / 65536 = x / 256 / 256) by (rewrite Z.div_div by lia; reflexivity).
      assert (x / 16777216 = x / 65536 / 256) by (rewrite Z.div_div by lia; reflexivity).
      assert (x / 16777216 mod 256 = x / 16777216).
      { apply Z.mod_small. split; [apply Z.div_pos; lia|apply Z.div_lt_upper_bound; lia]. }
      lia. }
    intros x y Hx Hy H. rewrite (E x Hx), (E y Hy). unfold bytes4 in H. injection H as -> -> -> ->. reflexivity. }
  unfold sv_eq. split.
  - destruct (list_eq_dec Z.eq_dec _ _) as [H|H].
    + split; [intros _|reflexivity].
      repeat split; (apply inj; [assumption|split; lia|]); unfold bytes4;
        injection H; intros; repeat match goal with h : _ = _ |- _ => rewrite h; clear h end; reflexivity.
    + split; [discriminate|]. intros (Ha & Hb & Hc). exfalso. apply H. rewrite Ha, Hb, Hc. reflexivity.
  - destruct (list_eq_dec Z.eq_dec _ _) as [H|H].
    + split; [intros _|reflexivity].
      repeat split; (apply inj; [assumption|split; lia|]); unfold bytes4;
        injection H; intros; repeat match goal with h : _ = _ |- _ => rewrite h; clear h end; reflexivity.
    + split; [discriminate|]. intros (Ha & Hb & Hc). exfalso. apply H. rewrite Ha, Hb, Hc. reflexivity.
Qed.
Print Assumptions C39_vendor.

(** The Linux fallback never invents a feature: a mask is set only if the corresponding name occurs in some buffer
    read from /proc/cpuinfo. *)
Definition occurs (p s : list ascii) : Prop := exists a b, s = (a ++ p ++ b)%list.

Lemma prefix_of_spec : forall p s, prefix_of p s = true -> exists b, s = (p ++ b)%list.
Proof.
  induction p as [|a p IH]; intros s H; [now exists s|].
  destruct s as [|b s]; [discriminate|]. cbn in H. destruct (ascii_dec a b) as [->|]; [|discriminate].
  destruct (IH s H) as [r ->]. now exists r.
Qed.
Lemma find_from_spec : forall p s r, find_from p s = Some r -> exists a b, s = (a ++ r)%list /\ r = (p ++ b)%list.
Proof.
  intros p s. induction s as [|c s IH]; intros r H; cbn in H.
  - destruct (prefix_of p []) eqn:E; [|discriminate]. injection H as <-.
    destruct (prefix_of_spec _ _ E) as [b Hb]. now exists [], b.
  - destruct (prefix_of p (c :: s)) eqn:E.
    + injection H as <-. destruct (prefix_of_spec _ _ E) as [b Hb]. now exists [], b.
    + destruct (IH r H) as (a & b & -> & ->). now exists (c :: a), b.
Qed.
Lemma found_occurs : forall p s, found p s = true -> occurs p s.
Proof.
  intros p s H. unfold found in H. destruct (find_from p s) as [r|] eqn:E; [|discriminate].
  destruct (find_from_spec _ _ _ E) as (a & b & -> & ->). now exists a, b.
Qed.
Lemma skip_seps_spec : forall s r, skip_seps s = Some r -> exists a, s = (a ++ r)%list.
Proof.
  induction s as [|c s IH]; intros r H; [discriminate|]. cbn in H. destruct (is_sep c).
  - destruct (IH r H) as [a ->]. now exists (c :: a).
  - injection H as <-. now exists [].
Qed.
Lemma occurs_app : forall p a s, occurs p s -> occurs p (a ++ s).
Proof. intros p a s (x & y & ->). exists (a ++ x)%list, y. now rewrite app_assoc. Qed.
Lemma occurs_skipn : forall n p s, occurs p (skipn n s) -> occurs p s.
Proof. intros n p s H. rewrite <- (firstn_skipn n s). now apply occurs_app. Qed.

Definition name6 (sel : nat) : list ascii :=
  lit (match sel with 0%nat => "sse" | 1%nat => "sse2" | 2%nat => "pni" | 3%nat => "ssse3" | 4%nat => "sse4_1" | _ => "sse4_2" end).
Definition mask6 (sel : nat) (k : masks6) : bool :=
  match sel with 0%nat => k_sse k | 1%nat => k_sse2 k | 2%nat => k_sse3 k | 3%nat => k_ssse3 k | 4%nat => k_sse41 k | _ => k_sse42 k end.

Lemma scan_sound : forall sel c, mask6 sel (fst (scan_chunk c)) = true -> occurs (lit "flags") c /\ occurs (name6 sel) c.
Proof.
  intros sel c H. unfold scan_chunk in H. destruct (find_from (lit "flags") c) as [r|] eqn:E.
  2:{ destruct sel as [|[|[|[|[|]]]]]; discriminate. }
  destruct (find_from_spec _ _ _ E) as (a & b & -> & Hr).
  split; [exists a, b; now rewrite Hr|]. apply occurs_app.
  destruct (skip_seps (skipn 5 r)) as [s|] eqn:E2.
  2:{ destruct sel as [|[|[|[|[|]]]]]; discriminate. }
  destruct (skip_seps_spec _ _ E2) as [u Hu]. apply (occurs_skipn 5). rewrite Hu. apply occurs_app.
  destruct sel as [|[|[|[|[|]]]]]; apply found_occurs; exact H.
Qed.

Theorem C39_linux_sound : forall sel reads, mask6 sel (linux_masks reads) = true ->
  exists c, In c reads /\ occurs (lit "flags") c /\ occurs (name6 sel) c.
Proof.
  intros sel reads. induction reads as [|c rest IH]; intros H.
  - destruct sel as [|[|[|[|[|]]]]]; discriminate.
  - cbn in H. destruct c as [|x c']; [destruct sel as [|[|[|[|[|]]]]]; discriminate|].
    destruct (scan_chunk (x :: c')) as [k cont] eqn:E.
    assert (S : mask6 sel k = true -> exists c, In c ((x :: c') :: rest) /\ occurs (lit "flags") c /\ occurs (name6 sel) c).
    { intros Hk. exists (x :: c'). split; [now left|]. apply scan_sound. now rewrite E. }
    destruct (negb cont && _)%bool; [now apply S|].
    assert (mask6 sel k = true \/ mask6 sel (linux_masks rest) = true) as [Hk|Hk].
    { apply orb_true_iff. destruct sel as [|[|[|[|[|]]]]]; exact H. }
    + now apply S.
    + destruct (IH Hk) as (d & Hd & A). exists d. split; [now right|exact A].
Qed.
Print Assumptions C39_linux_sound.

(** * Refutations of the unrestricted claim *)
Definition rg a b c d := {| eax := a; ebx := b; ecx := c; edx := d |}.
Definition mach (h : Z -> Z -> regs) (x : Z) (j : Z -> Z) : machine :=
  {| hw := h; xcr0 := x; junk := j; os_sse := true; os_sse2 := true; os_sse3 := true; os_ssse3 := true;
     os_sse41 := true; os_sse42 := true; apple := false; apple_avx512 := false |}.
(** a CPU with SSE..AVX512 and the vendor string GenuineIntel, with or without OSXSAVE *)
Definition full_cpu (osx : bool) (leaf sub : Z) : regs :=
  if leaf =? 0 then rg 7 1970169159 1818588270 1231384169
  else if leaf =? 1 then rg 0 0 (if osx then 2 ^ 27 + 2 ^ 28 + 2 ^ 29 + 2 ^ 12 + 1 + 2 ^ 9 + 2 ^ 19 + 2 ^ 20 else 2 ^ 28 + 2 ^ 29 + 2 ^ 12 + 1)
                            (2 ^ 25 + 2 ^ 26)
  else if andb (leaf =? 7) (sub =? 0) then rg 1 (2 ^ 5 + 2 ^ 16) 0 0
  else rg 0 0 0 0.
Lemma full_cpu_ok : forall osx x j, word 32 x -> machine_ok (mach (full_cpu osx) x j).
Proof.
  intros osx x j Hx. split; [|split; [exact Hx|]].
  - intros l s. cbn [hw mach]. unfold full_cpu.
    destruct (l =? 0); [|destruct (l =? 1); [|destruct (andb _ _)]]; destruct osx; cbn; repeat split; lia.
  - intros s. cbn [hw mach]. split; reflexivity.
Qed.

(** F16C is reported usable although the OS has not enabled the AVX state. *)
Theorem C39_f16c_refuted : exists m, machine_ok m /\ subleaf_zero m /\ apple m = false /\ osxsave m /\
  has (cpuid_ctor m) F16C = true /\ ~ xcr0_enabled m F16C /\ has (cpuid_ctor m) AVX = false.
Proof.
  exists (mach (full_cpu true) 3 (fun _ => 0)). split; [apply full_cpu_ok; split; lia|].
  split; [reflexivity|]. split; [reflexivity|]. split; [split; [cbn; lia|reflexivity]|].
  split; [reflexivity|]. split; [|reflexivity].
  intros H. specialize (H 2 ltac:(cbn; tauto)). discriminate.
Qed.
Print Assumptions C39_f16c_refuted.

(** Without OSXSAVE, AVX, AVX2, FMA and AVX-512 are reported usable (executing them would fault). *)
Theorem C39_avx_without_osxsave_refuted : exists m, machine_ok m /\ subleaf_zero m /\ ~ osxsave m /\
  (forall f, In f [AVX; AVX2; FMA; F16C; AVX512F] -> has (cpuid_ctor m) f = true).
Proof.
  exists (mach (full_cpu false) 0 (fun _ => 0)). split; [apply full_cpu_ok; split; lia|].
  split; [reflexivity|]. split; [intros [_ H]; discriminate|].
  intros f [<- | [<- | [<- | [<- | [<- | []]]]]]; reflexivity.
Qed.
Print Assumptions C39_avx_without_osxsave_refuted.

(** The sub-leaf register is not set before cpuid(7): with a stray value AVX2 is missed on a machine that has it. *)
Theorem C39_subleaf_refuted : exists m, machine_ok m /\ apple m = false /\ osxsave m /\
  cpu_reports m AVX2 /\ xcr0_enabled m AVX2 /\ has (cpuid_ctor m) AVX2 = false.
Proof.
  exists (mach (full_cpu true) 7 (fun _ => 1)). split; [apply full_cpu_ok; split; lia|].
  split; [reflexivity|]. split; [split; [cbn; lia|reflexivity]|].
  split; [split; [cbn; lia|reflexivity]|]. split; [|reflexivity].
  intros b [<- | [<- | []]]; reflexivity.
Qed.
Print Assumptions C39_subleaf_refuted.

(** The Linux scan misses a feature whose name is split across two reads (here: 4096 bytes of which the last
    three are "sse"), although the file contains the word. *)
Theorem C39_linux_split_refuted : exists reads, occurs (lit "sse2") (concat reads) /\
  occurs (lit "flags") (concat reads) /\ k_sse2 (linux_masks reads) = false /\ k_sse (linux_masks reads) = true.
Proof.
  set (c := (lit "flags : " ++ repeat "x"%char 4084 ++ lit " sse")%list).
  exists [c; lit "2"]. split; [|split].
  - exists (lit "flags : " ++ repeat "x"%char 4084 ++ [" "%char])%list, []. unfold c.
    cbn [concat]. rewrite !app_nil_r, <- !app_assoc. reflexivity.
  - exists [], (lit " : " ++ repeat "x"%char 4084 ++ lit " sse" ++ lit "2")%list. unfold c.
    cbn [concat]. rewrite !app_nil_r, <- !app_assoc. reflexivity.
  - vm_compute. split; reflexivity.
Qed.
Print Assumptions C39_linux_split_refuted.

(** A concrete machine meeting the hypotheses: AVX2 enabled, AVX-512 reported but not enabled. *)
Example C39_case : let m := mach (full_cpu true) 7 (fun _ => 0) in
  machine_ok m /\ osxsave m /\ has (cpuid_ctor m) AVX2 = true /\ has (cpuid_ctor m) AVX512F = false /\
  m_is_intel (cpuid_ctor m) = true /\ m_is_amd (cpuid_ctor m) = false.
Proof.
  split; [apply full_cpu_ok; split; lia|]. split; [split; [cbn; lia|reflexivity]|]. repeat split.
Qed.
Example C39_linux_case : let k := linux_masks [lit "flags : fpu sse sse2 pni ssse3"] in
  (k_sse k, k_sse2 k, k_sse3 k, k_ssse3 k, k_sse41 k) = (true, true, true, true, false).
Proof. vm_compute. reflexivity. Qed.
