(** Model of dpm/detail/x86/cpuid.hpp and dpm/detail/x86/cpuid.cpp. *)
From Coq Require Import ZArith List Bool Lia String Ascii.
From Verif Require Import Base.
Import ListNotations.
Local Open Scope Z_scope.

(** dpm/utility.hpp:137 [x & static_cast<T>(1 << pos)] for a 32-bit unsigned [x]. *)
Definition test_bit (x : Z) (pos : Z) : bool := negb (Z.land x (wrap 32 (Z.shiftl 1 pos)) =? 0).
(** dpm/utility.hpp:139 [x &= ~static_cast<T>(!bit << pos)] for a 32-bit unsigned [x]. *)
Definition mask_bit (x : Z) (pos : Z) (bit : bool) : Z :=
  Z.land x (Z.lxor (wrap 32 (Z.shiftl (Z.b2z (negb bit)) pos)) (2 ^ 32 - 1)).

(** The registers a [cpuid] instruction returns: eax, ebx, ecx, edx (cpuid.cpp:39 [cpuid_regs]). *)
Record regs := { eax : Z; ebx : Z; ecx : Z; edx : Z }.

(** The machine and operating system as seen by the constructor: [hw leaf subleaf] is the result of the
    [cpuid] instruction executed with eax=leaf, ecx=subleaf; [xcr0] the low half of XCR0;
    [junk leaf] the value that happens to be in ecx when [cpuid] is executed for [leaf]
    (cpuid.cpp:53-55: the assembly has no input operand for ecx). [os f] are the answers of the operating system
    about the SSE-family features (IsProcessorFeaturePresent, cpuid.cpp:148-153; sysctl 205-210; for Linux see
    [linux_masks] below). [apple_avx512] is the sysctl of line 127; [apple] selects that build. *)
Record machine := {
  hw : Z -> Z -> regs; xcr0 : Z; junk : Z -> Z;
  os_sse : bool; os_sse2 : bool; os_sse3 : bool; os_ssse3 : bool; os_sse41 : bool; os_sse42 : bool;
  apple : bool; apple_avx512 : bool }.

(** The members of class cpuid (cpuid.hpp:79-87). *)
Record cpuinfo := { l1_ecx : Z; l1_edx : Z; l7_ebx : Z; m_is_intel : bool; m_is_amd : bool }.

(** Little-endian bytes of a 32-bit register, as stored through the alias references (cpuid.cpp:85-87). *)
Definition bytes4 (x : Z) : list Z := [x mod 256; x / 256 mod 256; x / 65536 mod 256; x / 16777216 mod 256].
(** The characters of a string literal as bytes. *)
Fixpoint chars (s : string) : list Z :=
  match s with EmptyString => [] | String c r => Z.of_N (N_of_ascii c) :: chars r end.
(** [std::string_view::operator==] *)
Definition sv_eq (a b : list Z) : bool := if list_eq_dec Z.eq_dec a b then true else false.

(** cpuid.cpp:51-56 [platform_cpuid]: ecx is whatever it was. *)
Definition platform_cpuid (m : machine) (leaf : Z) : regs := hw m leaf (junk m leaf).

(** cpuid.cpp:76-222, the constructor; bit numbers are those of cpuid.hpp:17-42. *)
Definition cpuid_ctor (m : machine) : cpuinfo :=
  let r0 := platform_cpuid m 0 in
  let vendor := bytes4 (ebx r0) ++ bytes4 (edx r0) ++ bytes4 (ecx r0) in
  let intel := sv_eq vendor (chars "GenuineIntel") in
  let amd := sv_eq vendor (chars "AuthenticAMD") in
  let max_leaf := eax r0 in
  let r1 := platform_cpuid m 1 in
  let c1 := if 1 <=? max_leaf then ecx r1 else 0 in
  let d1 := if 1 <=? max_leaf then edx r1 else 0 in
  let r7 := platform_cpuid m 7 in
  let b7 := if 7 <=? max_leaf then ebx r7 else 0 in
  if test_bit c1 27 then
    let x := xcr0 m in
    let sse_mask := negb (Z.land x 2 =? 0) in
    let d1 := mask_bit d1 25 sse_mask in
    let d1 := mask_bit d1 26 sse_mask in
    let c1 := mask_bit c1 0 sse_mask in
    let c1 := mask_bit c1 9 sse_mask in
    let c1 := mask_bit c1 19 sse_mask in
    let c1 := mask_bit c1 20 sse_mask in
    let avx_mask := Z.land x 6 =? 6 in
    let c1 := mask_bit c1 28 avx_mask in
    let b7 := mask_bit b7 5 avx_mask in
    let c1 := mask_bit c1 12 avx_mask in
    let avx512_mask := if apple m then apple_avx512 m else Z.land x 230 =? 230 in
    let b7 := mask_bit b7 16 avx512_mask in
    let b7 := mask_bit b7 28 avx512_mask in
    let b7 := mask_bit b7 30 avx512_mask in
    let b7 := mask_bit b7 17 avx512_mask in
    let b7 := mask_bit b7 31 avx512_mask in
    {| l1_ecx := c1; l1_edx := d1; l7_ebx := b7; m_is_intel := intel; m_is_amd := amd |}
  else
    let d1 := mask_bit d1 25 (os_sse m) in
    let d1 := mask_bit d1 26 (os_sse2 m) in
    let c1 := mask_bit c1 0 (os_sse3 m) in
    let c1 := mask_bit c1 9 (os_ssse3 m) in
    let c1 := mask_bit c1 19 (os_sse41 m) in
    let c1 := mask_bit c1 20 (os_sse42 m) in
    {| l1_ecx := c1; l1_edx := d1; l7_ebx := b7; m_is_intel := intel; m_is_amd := amd |}.

(** The queries [cpuid::has_X()]. *)
Inductive feature :=
| MSR | CX8 | SEP | CMOV | CLFSH | XSAVE | F16C | CMPXCHG16B
| SSE | SSE2 | SSE3 | SSSE3 | SSE4_1 | SSE4_2 | AVX | AVX2 | FMA
| AVX512F | AVX512CD | AVX512BW | AVX512DQ | AVX512VL.

(** cpuid.hpp:48-76 *)
Definition has (i : cpuinfo) (f : feature) : bool :=
  match f with
  | MSR => test_bit (l1_edx i) 5
  | CX8 => test_bit (l1_edx i) 8
  | SEP => test_bit (l1_edx i) 11
  | CMOV => test_bit (l1_edx i) 15
  | CLFSH => test_bit (l1_edx i) 19
  | XSAVE => test_bit (l1_ecx i) 27
  | F16C => test_bit (l1_ecx i) 29
  | CMPXCHG16B => test_bit (l1_ecx i) 13
  | SSE => test_bit (l1_edx i) 25
  | SSE2 => test_bit (l1_edx i) 26
  | SSE3 => test_bit (l1_ecx i) 0
  | SSSE3 => test_bit (l1_ecx i) 9
  | SSE4_1 => test_bit (l1_ecx i) 19
  | SSE4_2 => test_bit (l1_ecx i) 20
  | AVX => test_bit (l1_ecx i) 28
  | AVX2 => test_bit (l7_ebx i) 5
  | FMA => test_bit (l1_ecx i) 12
  | AVX512F => test_bit (l7_ebx i) 16
  | AVX512CD => test_bit (l7_ebx i) 28
  | AVX512BW => test_bit (l7_ebx i) 30
  | AVX512DQ => test_bit (l7_ebx i) 17
  | AVX512VL => test_bit (l7_ebx i) 31
  end.

(** cpuid.cpp:154-178: the Linux scan of /proc/cpuinfo. The file is given as the list of successive results of
    read() on the 4096-byte buffer; the loop stops after the first short read. *)
Fixpoint prefix_of (p s : list ascii) : bool :=
  match p, s with
  | [], _ => true
  | a :: p', b :: s' => if ascii_dec a b then prefix_of p' s' else false
  | _, [] => false
  end.
(** [sv.find(p)] : the rest of [s] starting at the first occurrence of [p] ([None] = npos). *)
Fixpoint find_from (p s : list ascii) : option (list ascii) :=
  if prefix_of p s then Some s else match s with [] => None | _ :: s' => find_from p s' end.
Definition found (p s : list ascii) : bool := match find_from p s with Some _ => true | None => false end.
Definition is_sep (c : ascii) : bool :=
  (Ascii.eqb c "009"%char || Ascii.eqb c " "%char || Ascii.eqb c ":"%char)%bool.
(** [sv.find_first_not_of("\t :", ..)] *)
Fixpoint skip_seps (s : list ascii) : option (list ascii) :=
  match s with [] => None | c :: r => if is_sep c then skip_seps r else Some s end.
Definition lit (s : string) : list ascii := list_ascii_of_string s.

Record masks6 := { k_sse : bool; k_sse2 : bool; k_sse3 : bool; k_ssse3 : bool; k_sse41 : bool; k_sse42 : bool }.
Definition no_masks := {| k_sse := false; k_sse2 := false; k_sse3 := false; k_ssse3 := false; k_sse41 := false; k_sse42 := false |}.
Definition or_masks (a b : masks6) := {|
  k_sse := k_sse a || k_sse b; k_sse2 := k_sse2 a || k_sse2 b; k_sse3 := k_sse3 a || k_sse3 b;
  k_ssse3 := k_ssse3 a || k_ssse3 b; k_sse41 := k_sse41 a || k_sse41 b; k_sse42 := k_sse42 a || k_sse42 b |}.

(** cpuid.cpp:162-174: one buffer. The second component says that [continue] was taken, which also skips the
    short-read test of line 175. *)
Definition scan_chunk (sv : list ascii) : masks6 * bool :=
  match find_from (lit "flags") sv with
  | None => (no_masks, false)
  | Some at_flags =>
      match skip_seps (skipn 5 at_flags) with
      | None => (no_masks, true)
      | Some r => ({| k_sse := found (lit "sse") r; k_sse2 := found (lit "sse2") r; k_sse3 := found (lit "pni") r;
                      k_ssse3 := found (lit "ssse3") r; k_sse41 := found (lit "sse4_1") r;
                      k_sse42 := found (lit "sse4_2") r |}, false)
      end
  end.
(** cpuid.cpp:157-176: the loop; the end of the list is end of file (read returns 0). *)
Fixpoint linux_masks (reads : list (list ascii)) : masks6 :=
  match reads with
  | [] => no_masks
  | [] :: _ => no_masks
  | c :: rest =>
      let '(k, continued) := scan_chunk c in
      if (negb continued && (Nat.ltb (List.length c) 4096))%bool then k
      else or_masks k (linux_masks rest)
  end.
