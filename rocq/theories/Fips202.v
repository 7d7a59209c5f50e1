(** Model of Reference_Implementation/lib/fips202.c.

    A non-incremental context is the array of 25 lanes. An incremental one, uint64_t ctx[26], is kept as the pair of
    the 25 lanes and of ctx[25], a number of bytes below the rate, as a nat. An input pointer and its length are a list
    of bytes. An output pointer is a buffer and an offset. *)
From Verif Require Import Base Keccak.

Section Rate.
Variable r : nat. (* uint32_t r: rate in bytes *)

(** fips202.c:36-41 *)
Fixpoint absorb_loop (fuel : nat) (s m : list Z) : res (list Z * list Z) :=
  if (r <=? length m)%nat then
    match fuel with
    | O => NoFuel
    | S fuel' =>
      s1 <- StateXORBytes s m 0 r ;;
      s2 <- StatePermute s1 ;;
      absorb_loop fuel' s2 (skipn r m)
    end
  else Ok (s, m).

(** fips202.c:31-55. Despite its description it does not zero the state; its callers do. *)
Definition keccak_absorb (s m : list Z) (p : Z) : res (list Z) :=
  ' (s, m) <- absorb_loop (length m) s m ;;
  s <- (if (0 <? length m)%nat then StateXORBytes s m 0 (length m) else Ok s) ;;
  if (length m =? r - 1)%nat then
    StateXORBytes s [Z.lor p 128] (length m) 1
  else
    (s <- StateXORBytes s [p] (length m) 1 ;;
     StateXORBytes s [128] (r - 1) 1).

(** fips202.c:70-79. Writes at h[off ..]. *)
Fixpoint keccak_squeezeblocks (h : list Z) (off nblocks : nat) (s : list Z) : res (list Z * list Z) :=
  match nblocks with
  | O => Ok (h, s)
  | S n =>
    s <- StatePermute s ;;
    b <- rd h off r ;;
    b <- StateExtractBytes s b 0 r ;;
    h <- wr h off b ;;
    keccak_squeezeblocks h (off + r) n s
  end.

Definition incctx : Type := (list Z * nat)%type.

(** fips202.c:91-99 *)
Definition keccak_inc_init : incctx := (repeat 0 25, 0%nat).

(** fips202.c:114-130. The sum mlen + s_inc[25] cannot wrap, objects being smaller than the address space. *)
Fixpoint inc_absorb_loop (fuel : nat) (s : list Z) (pos : nat) (m : list Z) : res (list Z * nat * list Z) :=
  if (r <=? length m + pos)%nat then
    match fuel with
    | O => NoFuel
    | S fuel' =>
      s1 <- StateXORBytes s m pos (r - pos) ;;
      s2 <- StatePermute s1 ;;
      inc_absorb_loop fuel' s2 0 (skipn (r - pos) m)
    end
  else Ok (s, pos, m).

Definition keccak_inc_absorb (c : incctx) (m : list Z) : res incctx :=
  let '(s, pos) := c in
  ' (s, pos, m) <- inc_absorb_loop (length m + 1) s pos m ;;
  s <- StateXORBytes s m pos (length m) ;;
  Ok (s, (pos + length m)%nat).

(** fips202.c:145-158 *)
Definition keccak_inc_finalize (c : incctx) (p : Z) : res incctx :=
  let '(s, pos) := c in
  s <- (if (pos =? r - 1)%nat then StateXORBytes s [Z.lor p 128] pos 1
        else s <- StateXORBytes s [p] pos 1 ;; StateXORBytes s [128] (r - 1) 1) ;;
  Ok (s, 0%nat).

(** fips202.c:188-201 *)
Fixpoint inc_squeeze_loop (fuel : nat) (h : list Z) (off outlen : nat) (s : list Z) (pos : nat) : res (list Z * incctx) :=
  if (0 <? outlen)%nat then
    match fuel with
    | O => NoFuel
    | S fuel' =>
      s <- StatePermute s ;;
      let len := if (outlen <? r)%nat then outlen else r in
      b <- rd h off len ;;
      b <- StateExtractBytes s b 0 len ;;
      h <- wr h off b ;;
      inc_squeeze_loop fuel' h (off + len) (outlen - len) s (r - len)
    end
  else Ok (h, (s, pos)).

(** fips202.c:173-202 *)
Definition keccak_inc_squeeze (h : list Z) (outlen : nat) (c : incctx) : res (list Z * incctx) :=
  let '(s, pos) := c in
  let len := if (outlen <? pos)%nat then outlen else pos in
  b <- rd h 0 len ;;
  b <- StateExtractBytes s b (r - pos) len ;;
  h <- wr h 0 b ;;
  inc_squeeze_loop outlen h len (outlen - len) s (pos - len).

(** The one-shot functions shake128, shake256 (fips202.c:283-295, 328-341) for p = 0x1F, and sha3_256, sha3_384, sha3_512
    (358-369, 425-436, 447-458) for p = 0x06 and the digest length. *)
Definition one_shot (p : Z) (output : list Z) (outlen : nat) (input : list Z) : res (list Z) :=
  c <- keccak_inc_absorb keccak_inc_init input ;;
  c <- keccak_inc_finalize c p ;;
  ' (h, _) <- keccak_inc_squeeze output outlen c ;;
  Ok h.

(** sha3_256_inc_finalize (fips202.c:381-391), sha3_384_inc_finalize (404-414), sha3_512_inc_finalize (471-481): [n] is
    the digest length, [t] the content of the uninitialised local block, of [r] bytes. *)
Definition sha3_inc_finalize (n : nat) (output t : list Z) (c : incctx) : res (list Z) :=
  ' (s, _) <- keccak_inc_finalize c 6 ;;
  ' (t, _) <- keccak_squeezeblocks t 0 1 s ;;
  for_ n 0 (fun i output => x <- get t i ;; set output i x) output.

(** shake128_absorb, shake256_absorb (fips202.c:258-264, 302-309) *)
Definition shake_absorb (input : list Z) : res (list Z) := keccak_absorb (repeat 0 25) input 31.

End Rate.

(** fips202.h:6-10 *)
Definition SHAKE128_RATE : nat := 168.
Definition SHAKE256_RATE : nat := 136.
Definition SHA3_256_RATE : nat := 136.
Definition SHA3_384_RATE : nat := 104.
Definition SHA3_512_RATE : nat := 72.

(** fips202.c *)
Definition shake128 := one_shot SHAKE128_RATE 31.
Definition shake256 := one_shot SHAKE256_RATE 31.
Definition sha3_256 (output input : list Z) := one_shot SHA3_256_RATE 6 output 32 input.
Definition sha3_384 (output input : list Z) := one_shot SHA3_384_RATE 6 output 48 input.
Definition sha3_512 (output input : list Z) := one_shot SHA3_512_RATE 6 output 64 input.
Definition sha3_256_inc_finalize := sha3_inc_finalize SHA3_256_RATE 32.
Definition sha3_384_inc_finalize := sha3_inc_finalize SHA3_384_RATE 48.
Definition sha3_512_inc_finalize := sha3_inc_finalize SHA3_512_RATE 64.

(** SHA3-256("") and SHAKE128(""), 32 bytes, as published with the standard. *)
Example sha3_256_empty : sha3_256 (repeat 9 32) [] = Ok
  [0xa7;0xff;0xc6;0xf8;0xbf;0x1e;0xd7;0x66;0x51;0xc1;0x47;0x56;0xa0;0x61;0xd6;0x62;
   0xf5;0x80;0xff;0x4d;0xe4;0x3b;0x49;0xfa;0x82;0xd8;0x0a;0x4b;0x80;0xf8;0x43;0x4a].
Proof. vm_compute. reflexivity. Qed.
Example shake128_empty : shake128 (repeat 9 32) 32 [] = Ok
  [0x7f;0x9c;0x2b;0xa4;0xe8;0x8f;0x82;0x7d;0x61;0x60;0x45;0x50;0x76;0x05;0x85;0x3e;
   0xd7;0x3b;0x80;0x93;0xf6;0xef;0xbc;0x88;0xeb;0x1a;0x6e;0xac;0xfa;0x66;0xef;0x26].
Proof. vm_compute. reflexivity. Qed.
