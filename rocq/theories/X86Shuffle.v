(** Model of the constant-index shuffles of the x86 backend: /repo/dpm/detail/x86/transform.hpp 82-103, 337-343, 374-413,
    619-649, type.hpp 214-232 (masks), 726-744 (vectors), and the index-sequence metaprograms of /repo/dpm/utility.hpp 49-96. *)
From Coq Require Import ZifyBool ZifyNat.
From Verif Require Import Base Cxx Generic X86Vec X86 X86Reduce.

(** ** utility.hpp: index sequences (lists of nat; std::size_t wrap-around is not modelled) *)
(** reverse_sequence_t, 49-56: [acc] is the already reversed front. *)
Fixpoint reverse_sequence (acc is : list nat) : list nat :=
  match is with [] => acc | i :: is' => reverse_sequence (i :: acc) is' end.
(** extract_sequence_t<P, N, Is...>, 58-67: drop P indices, then collect N. [None]: no matching specialisation. *)
Fixpoint extract_sequence (js ks : list nat) (P N : nat) (is : list nat) : option (list nat) :=
  if (length js =? P) && (length ks =? N) then Some ks
  else match is with
       | [] => None
       | i :: is' => if length js =? P then extract_sequence js (ks ++ [i]) P N is' else extract_sequence (i :: js) ks P N is'
       end.
(** repeat_sequence_t<N, 1, Is...>, 69-78: each index I becomes I*N + (N-1), ..., I*N. *)
Fixpoint repeat_sequence (N : nat) (is : list nat) : list nat :=
  match is with [] => [] | i :: is' => map (fun J => i * N + (N - J - 1)) (seq 0 N) ++ repeat_sequence N is' end.
(** pad_sequence_t<N, 1, Is...>, 80-89, for a non-empty list of fewer than N indices: the list, then last+1, last+2, ... up to
    N indices. *)
Definition pad_sequence (N : nat) (is : list nat) : list nat :=
  is ++ map (fun k => last is 0 + 1 + k) (seq 0 (N - length is)).

(** ** transform.hpp *)
(** is_sequential<-1, I, I, Is...>, generic/type.hpp 65-70 *)
Fixpoint sequential_down (i : nat) (l : list nat) {struct l} : bool :=
  match l with
  | [] => false
  | [x] => x =? i
  | x :: l' => (x =? i) && match i with O => false | S i' => sequential_down i' l' end
  end.
(** sequence_shuffle<T, V, I, Is...>, 82-83; [e] = sizeof(V) / sizeof(T) *)
Definition sequence_shuffle (e : nat) (js : list nat) : bool :=
  match js with
  | [] => false
  | i :: js' => forallb (fun j => i / e =? j / e) js' && sequential_down i (i :: js')
  end.
(** _mm_shuffle_ps, _mm_shuffle_pd *)
Definition shuffle_ps (a b : vec) (i3 i2 i1 i0 : nat) : vec := [nth i0 a 0; nth i1 a 0; nth i2 b 0; nth i3 b 0]%Z.
Definition shuffle_pd (a b : vec) (i1 i0 : nat) : vec := [nth i0 a 0; nth i1 b 0]%Z.
(** 88-103: 4-byte elements *)
Definition shuf4 (js : list nat) (x : list vec) : res vec :=
  match js with
  | [I3; I2; I1; I0] =>
      let P0 := I0 / 4 in let P1 := I1 / 4 in let P2 := I2 / 4 in let P3 := I3 / 4 in
      va <- get x P0;; vb <- get x P2;;
      if (P0 =? P1) && (P2 =? P3) then Ok (shuffle_ps va vb (I3 mod 4) (I2 mod 4) (I1 mod 4) (I0 mod 4))
      else
        va1 <- get x P1;; vb1 <- get x P3;;
        let a := shuffle_ps va va1 (I1 mod 4) (I1 mod 4) (I0 mod 4) (I0 mod 4) in
        let b := shuffle_ps vb vb1 (I3 mod 4) (I3 mod 4) (I2 mod 4) (I2 mod 4) in
        Ok (shuffle_ps a b 2 0 2 0)
  | _ => UB
  end.
(** 337-343: 8-byte elements *)
Definition shuf8 (js : list nat) (x : list vec) : res vec :=
  match js with
  | [I1; I0] => va <- get x (I0 / 2);; vb <- get x (I1 / 2);; Ok (shuffle_pd va vb (I1 mod 2) (I0 mod 2))
  | _ => UB
  end.
(** 398-407: bytes. shuffle_elements (utility.hpp 90-95) reads bytes of the whole array. *)
Definition shuf1 (js : list nat) (x : list vec) : res vec :=
  match js with
  | [] => UB
  | i :: js' =>
      if sequence_shuffle 16 js then get x (i / 16)
      else if negb (forallb (fun j => i / 16 =? j / 16) js') then mapM (get (concat x)) (reverse_sequence [] js)
      else v <- get x (i / 16);; Ok (pick (rev (map (fun j => j mod 16) js)) v)   (* _mm_set_epi8 lists the last lane first *)
  end.
(** _mm_shufflelo_epi16 / _mm_shufflehi_epi16 with _MM_SHUFFLE(m3, m2, m1, m0) *)
Definition shufflelo (v : vec) (m : list nat) : vec := pick (rev m) v ++ skipn 4 v.
Definition shufflehi (v : vec) (m : list nat) : vec := firstn 4 v ++ pick (map (fun k => 4 + k) (rev m)) v.
(** lane J of the register seen as two 64-bit lanes *)
Definition quad (v : vec) (J : nat) : vec := firstn 4 (skipn (4 * J) v).
(** 376-397 and 408-412: 2-byte elements *)
Definition shuf2 (js : list nat) (x : list vec) : res vec :=
  match extract_sequence [] [] 0 4 js, extract_sequence [] [] 4 4 js with
  | Some (IA :: IAs), Some (IB :: IBs) =>
      if forallb (fun j => IA / 4 =? j / 4) IAs && forallb (fun j => IB / 4 =? j / 4) IBs && negb (IA / 8 =? IB / 8) then
        let J0 := (IA / 4) mod 2 in let J1 := (IB / 4) mod 2 in
        let ma := map (fun j => j mod 4) (IA :: IAs) in let mb := map (fun j => j mod 4) (IB :: IBs) in
        xa <- get x (IA / 8);; xb <- get x (IB / 8);;
        let a := if J0 =? 1 then shufflehi xa ma else shufflelo xa ma in
        let b := if J1 =? 1 then shufflehi xb mb else shufflelo xb mb in
        Ok (quad b J1 ++ quad a J0)                              (* shuffle_pd(b, a, SHUFFLE2(J0, J1)) *)
      else rmap (join2 8) (shuf1 (repeat_sequence 2 ((IA :: IAs) ++ IB :: IBs)) (map (split2 8) x))
  | _, _ => UB
  end.
(** shuffle<T>(index_sequence, V const* x) for a 128-bit V *)
Definition shuf128 (sz : nat) (js : list nat) (x : list vec) : res vec :=
  if sequence_shuffle (16 / sz) js then get x (hd 0 js / (16 / sz))           (* 85-87 *)
  else if sz =? 8 then shuf8 js x else if sz =? 4 then shuf4 js x else if sz =? 2 then shuf2 js x else shuf1 js x.
(** for a 256-bit V: 619-629 *)
Definition shuf256 (sz : nat) (js : list nat) (x : list vec) : res vec :=
  if sequence_shuffle (32 / sz) js then get x (hd 0 js / (32 / sz))
  else
    let x128 := split128 x in
    match extract_sequence [] [] (16 / sz) (16 / sz) js, extract_sequence [] [] 0 (16 / sz) js with
    | Some jl, Some jh => l <- shuf128 sz jl x128;; h <- shuf128 sz jh x128;; Ok (l ++ h)
    | _, _ => UB
    end.
Definition shuf_reg (vs sz : nat) (js : list nat) (x : list vec) : res vec :=
  if vs =? 32 then shuf256 sz js x else shuf128 sz js x.

(** 631-649: the driver, on registers of [vs] bytes. J is 0 in every call. *)
Fixpoint shuf_drv (fuel vs sz : nat) (is : list nat) (dst : list vec) (off : nat) (src : list vec) : res (list vec) :=
  match fuel with
  | O => UB
  | S fuel =>
      let e := vs / sz in
      if length is =? e then v <- shuf_reg vs sz (reverse_sequence [] is) src;; set dst off v
      else if e <? length is then
        match extract_sequence [] [] 0 e is, extract_sequence [] [] e (length is - e) is with
        | Some i1, Some i2 => d <- shuf_drv fuel vs sz i1 dst off src;; shuf_drv fuel vs sz i2 d (off + 1) src
        | _, _ => UB
        end
      else shuf_drv fuel vs sz (pad_sequence e is) dst off src
  end.
(** reinterpret_cast of an array of 128-bit registers to 256-bit registers (the inverse of [split128]) *)
Fixpoint join128 (x : list vec) : list vec :=
  match x with a :: b :: x' => (a ++ b) :: join128 x' | _ => [] end.
(** ext::shuffle<Is...>(x): x of type [X], result of type [Y] (M = |Is| elements). 634 and 642 pick the narrower of the two
    register widths. The result starts zeroed. *)
Definition x_shuffle (X Y : xty) (is : list nat) (x : list vec) : res (list vec) :=
  let vs := Nat.min (xvs X) (xvs Y) in
  let src := if vs <? xvs X then split128 x else x in
  if vs <? xvs Y then rmap join128 (shuf_drv (length is + 2) vs (esz (xT X)) is (split128 (zeros Y)) 0 src)
  else shuf_drv (length is + 2) vs (esz (xT X)) is (zeros Y) 0 src.
(** 216, 728: the overload exists for 4- and 8-byte elements, and with SSSE3 for all. *)
Definition has_shuffle (X : xty) : bool := (4 <=? esz (xT X)) || ssse3 (xc X).
