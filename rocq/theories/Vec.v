(** 256-bit vectors: Optimized_Implementation/avx2/include/macro.h and neon/include/macro.h.

    A vec256_t is the list of its 32 bytes and a vec128_t that of its 16 bytes, in memory order. The operations used by
    the code are the AVX2 intrinsics (as documented by the vendor) or the NEON ones; where the two headers differ the
    definition depends on [isa]. The macros overwrite their operands; here they return the new values. *)
From Verif Require Import Base.

Inductive isa := AVX2 | NEON.

Definition vec := list Z.

Fixpoint map2 {A B C} (f : A -> B -> C) (a : list A) (b : list B) : list C :=
  match a, b with
  | x :: a', y :: b' => f x y :: map2 f a' b'
  | _, _ => []
  end.

(** The little-endian 16-bit lanes of a vector, and back. *)
Fixpoint words (v : vec) : list Z :=
  match v with
  | lo :: hi :: v' => lo + 256 * hi :: words v'
  | _ => []
  end.
Fixpoint unwords (w : list Z) : vec :=
  match w with
  | [] => []
  | x :: w' => u8 x :: u8 (x / 256) :: unwords w'
  end.

(** avx2 macro.h:56 _mm256_add_epi8; neon macro.h:90 *)
Definition vadd8 (a b : vec) : vec := map2 (fun x y => u8 (x + y)) a b.
(** avx2 macro.h:57, 62 _mm256_add_epi16, _mm256_sub_epi16; neon macro.h:91, 96 *)
Definition vadd16 (a b : vec) : vec := unwords (map2 (fun x y => u16 (x + y)) (words a) (words b)).
Definition vsub16 (a b : vec) : vec := unwords (map2 (fun x y => u16 (x - y)) (words a) (words b)).
(** avx2 macro.h:65 _mm256_mullo_epi16; neon macro.h:100 *)
Definition vmul_lo16 (a b : vec) : vec := unwords (map2 (fun x y => u16 (x * y)) (words a) (words b)).
(** The signed value of a 16-bit lane *)
Definition s16 (x : Z) : Z := if x <? 32768 then x else x - 65536.
(** avx2 macro.h:69 _mm256_srai_epi16, an arithmetic shift; neon macro.h:103 vshrq_n_u16, a logical one *)
Definition vsr16 (i : isa) (a : vec) (n : Z) : vec :=
  unwords (map (fun x => match i with AVX2 => u16 (Z.shiftr (s16 x) n) | NEON => Z.shiftr x n end) (words a)).
(** _mm256_srli_epi16 in avx2 macro.h:127, 159, 169; neon macro.h:103 *)
Definition vsrl16 (a : vec) (n : Z) : vec := unwords (map (fun x => Z.shiftr x n) (words a)).
(** avx2 macro.h:72 _mm256_slli_epi16; neon macro.h:106 *)
Definition vsl16 (a : vec) (n : Z) : vec := unwords (map (fun x => u16 (Z.shiftl x n)) (words a)).
(** avx2 macro.h:75 _mm256_and_si256; neon macro.h:109 *)
Definition vand (a b : vec) : vec := map2 Z.land a b.
(** avx2 macro.h:81 _mm256_set1_epi8; neon macro.h:115 *)
Definition vset8 (n : Z) : vec := repeat n 32.
(** avx2 macro.h:91 _mm256_cvtepu8_epi16; neon macro.h:126 *)
Definition vextend8_16 (a : vec) : vec := unwords a.
(** avx2 macro.h:94, 96 _mm256_extracti128_si256; neon macro.h:129, 131 *)
Definition vget_lo (a : vec) : vec := firstn 16 a.
Definition vget_hi (a : vec) : vec := skipn 16 a.

(** avx2 macro.h:102 _mm256_shuffle_epi8: within each half, byte [k] of the result is 0 if bit 7 of the index is set
    and otherwise the byte selected by the low four bits; neon macro.h:137 vqtbl1q_s8: 0 if the index is above 15. *)
Definition shuf_byte (i : isa) (half : vec) (idx : Z) : Z :=
  match i with
  | AVX2 => if Z.testbit idx 7 then 0 else nth (Z.to_nat (Z.land idx 15)) half 0
  | NEON => if 15 <? idx then 0 else nth (Z.to_nat idx) half 0
  end.
Definition vshuffle8 (i : isa) (a b : vec) : vec :=
  map (shuf_byte i (firstn 16 a)) (firstn 16 b) ++ map (shuf_byte i (skipn 16 a)) (skipn 16 b).

(** avx2 macro.h:110 _mm256_permute4x64_epi64: 64-bit lane [k] of the result is the one selected by bits 2k, 2k+1 of the
    immediate; neon macro.h:155-163 is that loop. *)
Definition qword (a : vec) (k : nat) : vec := firstn 8 (skipn (8 * k) a).
Definition vpermute_4x64 (a : vec) (imm : Z) : vec :=
  concat (map (fun k => qword a (Z.to_nat (Z.land (Z.shiftr imm (2 * Z.of_nat k)) 3))) (seq 0 4)).

(** avx2 macro.h:108 _mm256_permute2x128_si256: each half is selected among those of [a] and [b] by two bits of the
    immediate, or zero if bit 3 is set. *)
Definition half (a : vec) (k : Z) : vec := if k =? 0 then firstn 16 a else skipn 16 a.
Definition perm2_avx2 (a b : vec) (ctl : Z) : vec :=
  if Z.testbit ctl 3 then repeat 0 16
  else half (if Z.testbit ctl 1 then b else a) (Z.land ctl 1).
(** neon macro.h:143-153 *)
Definition vpermute2 (i : isa) (a b : vec) (d : Z) : vec :=
  match i with
  | AVX2 => perm2_avx2 a b (Z.land d 15) ++ perm2_avx2 a b (Z.land (Z.shiftr d 4) 15)
  | NEON =>
      (if Z.testbit d 3 then repeat 0 16
       else if Z.land d 3 <=? 1 then half a (Z.land d 1) else half b (Z.land (Z.shiftr d 2) 1)) ++
      (if Z.testbit d 7 then repeat 0 16
       else if Z.land (Z.shiftr d 4) 3 <=? 1 then half a (Z.shiftr d 4) else half b (Z.shiftr d 6))
  end.

(** avx2 macro.h:126-130, neon macro.h:179-183: returns the new [a] *)
Definition barrett_red8 (a c127 c1 : vec) : vec :=
  let t := vsrl16 a 7 in
  let t := vand t c1 in
  let a := vadd8 a t in
  vand a c127.

(** avx2 macro.h:142-147, neon macro.h:191-196: returns [c] *)
Definition barrett_mul_u16 (i : isa) (a b : vec) : vec :=
  let a := vmul_lo16 a b in
  let t := vsr16 i a 7 in
  let a := vadd16 a t in
  let t := vsl16 t 7 in
  vsub16 a t.

(** avx2 macro.h:166-171, neon macro.h:213-215 *)
Definition W_RED127_ (x c01 c7f : vec) : vec :=
  vand (vadd8 (vand (vsrl16 (vadd8 x c01) 7) c01) x) c7f.

(** The unused avx2 macro.h:157-163 (neon macro.h:205-209) W_RED127, the first version of the reduction *)
Definition W_RED127 (x c01 c7f : vec) : vec :=
  vand (vadd8 x (vand (vsrl16 x 7) c01)) c7f.

(** common/lib/codes.c:39-44 *)
Definition shuff_low_half : vec :=
  [0; 2; 4; 6; 8; 10; 12; 14; 128; 128; 128; 128; 128; 128; 128; 128;
   0; 2; 4; 6; 8; 10; 12; 14; 128; 128; 128; 128; 128; 128; 128; 128].
