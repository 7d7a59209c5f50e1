(** NIST API: Reference_Implementation/lib/sign.c.
    Every buffer is a separate object (no aliasing); a list is the whole allocated object. *)
From Verif Require Import Base Params Prim Less.

Section S.
Variable X : prim.
Variable p : params.
Variable fuel : nat.
Variable junk : nat -> nat -> Z.

(** sign.c:33-40. [pk], [sk]: output buffers of at least the struct sizes. *)
Definition crypto_sign_keypair (rng : xstate X) (pk sk : list Z)
  : res (Z * list Z * list Z * xstate X) :=
  sk0 <- rd sk 0 (sizeof_sk p) ;;
  pk0 <- rd pk 0 (sizeof_pk p) ;;
  ' (sk1, pk1, rng') <- LESS_keygen X p fuel junk rng sk0 pk0 ;;
  sk' <- wr sk 0 sk1 ;;
  pk' <- wr pk 0 pk1 ;;
  Ok (0, pk', sk', rng').

(** sign.c:47-62. [sm]: output buffer; m has mlen = |m| bytes. The sign_t object overlaid at
    sm + mlen must fit in the buffer (the first [rd] below). Returns (ret, sm, smlen, rng). *)
Definition crypto_sign (rng : xstate X) (sm m sk : list Z)
  : res (Z * list Z * Z * xstate X) :=
  let mlen := length m in
  sm1 <- wr sm 0 m ;;
  sg <- rd sm1 mlen (sizeof_sign p) ;;
  ' (sg', num, rng') <- LESS_sign X p fuel junk rng sk m sg ;;
  sm2 <- wr sm1 mlen sg' ;;
  let sig_len := less_crypto_bytes p (u32 (Z.of_nat num)) in
  Ok (0, sm2, u64 (Z.of_nat mlen + sig_len), rng').

(** sign.c:69-94. [m0]: output buffer, [sm]: the object holding the signed message,
    [smlen] the length argument. Returns (ret, m, mlen) where mlen is [None] when *mlen is
    not written. *)
Definition crypto_sign_open (m0 sm : list Z) (smlen : Z) (pk : list Z)
  : res (Z * list Z * option Z) :=
  let last := u64 (smlen - 1) in
  if last <? Z.of_nat (length sm) then
    num <- get sm (Z.to_nat last) ;;
    if max_seeds p <=? num then Ok (-1, m0, None)
    else
      let sig_len := less_crypto_bytes p num in
      let mlen := u64 (smlen - sig_len) in
      if (mlen <=? Z.of_nat (length sm)) && (mlen <=? Z.of_nat (length m0)) then
        d <- rd sm 0 (Z.to_nat mlen) ;;
        m1 <- wr m0 0 d ;;
        ok <- LESS_verify X p fuel junk pk (firstn (Z.to_nat mlen) m1) (skipn (Z.to_nat mlen) sm) ;;
        Ok (ok - 1, m1, Some mlen)
      else UB
  else UB.

End S.
