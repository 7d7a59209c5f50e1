(** The incremental functions of Reference_Implementation/lib/fips202.c on the array uint64_t ctx[26], with size_t and
    uint64_t computed modulo 2^64 and unsigned int modulo 2^32, and their callers in sha3.h, rng.h and rng.c with the
    conversions of lengths made there. Fips202.v is the same code on contexts (lanes, counter) without these types.
    Memory from a pointer to the end of its object is a list; an advanced pointer is an offset. *)
From Verif Require Import Base Params Keccak Fips202.

(** keccakf1600.c:41-48 and 50-57, applied to the array [s] of 26 words: the loop counter and the index are unsigned int. *)
Definition extract_bytes (s h : list Z) (hoff : nat) (offset length : Z) : res (list Z) :=
  for_ (Z.to_nat (u32 length)) 0 (fun i h =>
    let k := u32 (u32 offset + Z.of_nat i) in
    lane <- get s (Z.to_nat (k / 8)) ;;
    set h (hoff + i) (u8 (Z.shiftr lane (8 * (k mod 8))))) h.
Definition xor_bytes (s data : list Z) (doff : nat) (offset length : Z) : res (list Z) :=
  for_ (Z.to_nat (u32 length)) 0 (fun i s =>
    let k := u32 (u32 offset + Z.of_nat i) in
    lane <- get s (Z.to_nat (k / 8)) ;;
    d <- get data (doff + i) ;;
    set s (Z.to_nat (k / 8)) (Z.lxor lane (u64 (Z.shiftl d (8 * (k mod 8)))))) s.

(** keccakf1600.c:59-322 reads and writes the words 0 to 24 of the array. *)
Definition permute26 (s : list Z) : res (list Z) :=
  st <- StatePermute (firstn 25 s) ;; Ok (st ++ skipn 25 s).

(** fips202.c:91-99 *)
Definition init26 (s : list Z) : res (list Z) :=
  s <- for_ 25 0 (fun i s => set s i 0) s ;; set s 25 0.

Section Rate.
Variable r : nat. (* uint32_t r: rate in bytes *)
Notation rz := (Z.of_nat r).

(** fips202.c:114-130; [mlen] is of type size_t. *)
Fixpoint absorb26_loop (fuel : nat) (s m : list Z) (moff : nat) (mlen : Z) : res (list Z * nat * Z) :=
  pos <- get s 25 ;;
  if rz <=? u64 (mlen + pos) then
    match fuel with
    | O => NoFuel
    | S fuel' =>
      s <- xor_bytes s m moff pos (u64 (rz - pos)) ;;
      pos <- get s 25 ;;
      let d := u64 (rz - pos) in
      s <- set s 25 0 ;;
      s <- permute26 s ;;
      absorb26_loop fuel' s m (moff + Z.to_nat d) (u64 (mlen - d))
    end
  else Ok (s, moff, mlen).
Definition absorb26 (s m : list Z) (mlen : Z) : res (list Z) :=
  ' (s, moff, mlen) <- absorb26_loop (S (Z.to_nat mlen)) s m 0 mlen ;;
  pos <- get s 25 ;;
  s <- xor_bytes s m moff pos mlen ;;
  pos <- get s 25 ;;
  set s 25 (u64 (pos + mlen)).

(** fips202.c:145-158. The variable p is passed by its address. *)
Definition finalize26 (s : list Z) (p : Z) : res (list Z) :=
  pos <- get s 25 ;;
  s <- (if pos =? rz - 1 then xor_bytes s [Z.lor p 128] 0 pos 1
        else s <- xor_bytes s [p] 0 pos 1 ;; xor_bytes s [128] 0 (rz - 1) 1) ;;
  set s 25 0.

(** fips202.c:188-201 *)
Fixpoint squeeze26_loop (fuel : nat) (h : list Z) (hoff : nat) (outlen : Z) (s : list Z) : res (list Z * list Z) :=
  if 0 <? outlen then
    match fuel with
    | O => NoFuel
    | S fuel' =>
      s <- permute26 s ;;
      let len := if outlen <? rz then outlen else rz in
      h <- extract_bytes s h hoff 0 len ;;
      s <- set s 25 (u64 (rz - len)) ;;
      squeeze26_loop fuel' h (hoff + Z.to_nat len) (u64 (outlen - len)) s
    end
  else Ok (h, s).

(** fips202.c:173-202 *)
Definition squeeze26 (h : list Z) (outlen : Z) (s : list Z) : res (list Z * list Z) :=
  pos <- get s 25 ;;
  let len := if outlen <? pos then outlen else pos in
  h <- extract_bytes s h 0 (u64 (rz - pos)) len ;;
  s <- set s 25 (u64 (pos - len)) ;;
  squeeze26_loop (Z.to_nat outlen) h (Z.to_nat len) (u64 (outlen - len)) s.

(** fips202.c:70-79 *)
Fixpoint squeezeblocks26 (h : list Z) (hoff nblocks : nat) (s : list Z) : res (list Z * list Z) :=
  match nblocks with
  | O => Ok (h, s)
  | S n =>
    s <- permute26 s ;;
    h <- extract_bytes s h hoff 0 rz ;;
    squeezeblocks26 h (hoff + r) n s
  end.

(** sha3_256_inc_finalize (fips202.c:381-391), sha3_384_inc_finalize (404-414), sha3_512_inc_finalize (471-481) *)
Definition sha3_finalize26 (n : nat) (output t s : list Z) : res (list Z) :=
  s <- finalize26 s 6 ;;
  ' (t, _) <- squeezeblocks26 t 0 1 s ;;
  for_ n 0 (fun i output => x <- get t i ;; set output i x) output.

(** sha3.h:140-171: the lengths are unsigned int. *)
Definition xof_update (s input : list Z) (len : Z) : res (list Z) := absorb26 s input (u32 len).
Definition xof_extract (s output : list Z) (len : Z) : res (list Z * list Z) := squeeze26 output (u32 len) s.

(** rng.c:40-48 on the state [s] and rng.h:36-52; [seed_len] is of type uint32_t, [xlen] of type unsigned long long.
    randombytes is the same function on the global state. *)
Definition initialize_csprng26 (s seed : list Z) (seed_len : Z) : res (list Z) :=
  s <- init26 s ;; s <- xof_update s seed seed_len ;; finalize26 s 31.
Definition csprng_randombytes26 (s x : list Z) (xlen : Z) : res (list Z * list Z) := xof_extract s x xlen.
End Rate.
