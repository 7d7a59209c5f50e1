(** NIST API, Reference_Implementation/lib/sign.c and LESS.c, when the message and the signed message are parts of one
    buffer. In [Sign] they are separate objects; here [b] is the only object, [i] is the position of the message in it and
    [j] that of the signed message. The keys are separate objects. *)
From Verif Require Import Base Params Prim Samplers Monomial Codes Utils SeedTree Less.

(** string.h: memcpy within one object. Overlapping regions are undefined behaviour. *)
Definition memcpy (b : list Z) (dst src n : nat) : res (list Z) :=
  if (n =? 0)%nat || (dst + n <=? src)%nat || (src + n <=? dst)%nat then (d <- rd b src n ;; wr b dst d) else UB.

Section S.
Variable X : prim.
Variable p : params.
Variable fuel : nat.
Variable junk : nat -> nat -> Z.

(** LESS.c:172-187, with the struct sig at [o] *)
Definition sign_respond_at (o : nat) (seeds : list (list Z)) (acts : list action) (fws b : list Z) : res (list Z) :=
  ' (b', _, _) <- for_ (pT p) 0 (fun i s =>
      let '(b, emitted, act) := s in
      x <- get fws i ;;
      if x =? 0 then Ok (b, emitted, act)
      else
        sd <- get seeds (Z.to_nat (x - 1)) ;;
        Q <- monomial_mat_seed_expand_prikey X p fuel (junk_monomial p junk 16) sd ;;
        a <- get acts i ;;
        act' <- monomial_compose_action p (junk_monomial p junk 18) act Q a ;;
        if (emitted <? pW p)%nat then
          buf <- rd b (o + off_monom p emitted) (mono_bytes p) ;;
          buf' <- compress_monom_action p buf act' ;;
          b' <- wr b (o + off_monom p emitted) buf' ;;
          Ok (b', S emitted, act')
        else UB) (b, 0%nat, junk_action p junk 20) ;;
  Ok b'.

(** LESS.c:95-191, with m at [i] and the struct sig at [o] of the buffer. The message is read at 148, when the salt has
    been written (116) and nothing else of sig. As in [Less] the salt and the digest are not read back: nothing is written
    over them (C57 has these reads). *)
Definition LESS_sign_at (rng : xstate X) (sk b : list Z) (i mlen o : nat) : res (list Z * nat * xstate X) :=
  csk <- rd sk 0 (prikey_seed_len p) ;;
  let seeds := private_seeds X p (p_nk p - 1) (x_init X csk) in
  let (ephem, rng1) := x_squeeze X (seed_len p) rng in
  let (salt, rng2) := x_squeeze X (hash_len p) rng1 in
  b1 <- wr b o salt ;;
  tree <- generate_seed_tree_from_root X p (repeat (repeat 0 (seed_len p)) (num_nodes p)) ephem salt ;;
  g0seed <- rd sk (off_sk_g0 p) (seed_len p) ;;
  G0 <- generator_SF_seed_expand X p fuel (junk_rref p junk 0) g0seed ;;
  fullG <- generator_rref_expand p (junk_mat junk 2 (pK p) (pN p)) G0 ;;
  ' (h, acts) <- sign_commit X p fuel junk tree salt fullG ;;
  m <- rd b1 i mlen ;;
  let digest := h_final X (h_absorb X (h_absorb X h m) salt) in
  b2 <- wr b1 (o + off_digest p) digest ;;
  fws <- expand_digest_to_fixed_weight X p fuel (repeat 0 (pT p)) digest ;;
  b3 <- wr b2 (o + off_seeds p) (repeat 0 (Z.to_nat (p_maxbytes p))) ;;
  stg <- rd b3 (o + off_seeds p) (seed_storage_len p) ;;
  ' (num, stg1) <- seed_tree_path p tree (to_publish fws) stg ;;
  b4 <- wr b3 (o + off_seeds p) stg1 ;;
  b5 <- sign_respond_at o seeds acts fws b4 ;;
  stg2 <- rd b5 (o + off_seeds p) (seed_storage_len p) ;;
  stg3 <- set stg2 (num * seed_len p) (u8 (Z.of_nat num)) ;;
  b6 <- wr b5 (o + off_seeds p) stg3 ;;
  Ok (b6, num, rng2).

(** sign.c:47-62. The arguments are sm = b + j, m = b + i. *)
Definition crypto_sign_at (rng : xstate X) (b : list Z) (j i mlen : nat) (sk : list Z) : res (Z * list Z * Z * xstate X) :=
  b1 <- memcpy b j i mlen ;;
  ' (b2, num, rng') <- LESS_sign_at rng sk b1 i mlen (j + mlen) ;;
  let sig_len := less_crypto_bytes p (u32 (Z.of_nat num)) in
  Ok (0, b2, u64 (Z.of_nat mlen + sig_len), rng').

(** sign.c:69-94. The arguments are m = b + i, sm = b + j. LESS_verify writes to neither. *)
Definition crypto_sign_open_at (b : list Z) (i j : nat) (smlen : Z) (pk : list Z) : res (Z * list Z * option Z) :=
  let last := u64 (smlen - 1) in
  if Z.of_nat j + last <? Z.of_nat (length b) then
    num <- get b (j + Z.to_nat last) ;;
    if max_seeds p <=? num then Ok (-1, b, None)
    else
      let sig_len := less_crypto_bytes p num in
      let mlen := u64 (smlen - sig_len) in
      if (Z.of_nat j + mlen <=? Z.of_nat (length b)) && (Z.of_nat i + mlen <=? Z.of_nat (length b)) then
        b1 <- memcpy b i j (Z.to_nat mlen) ;;
        m <- rd b1 i (Z.to_nat mlen) ;;
        ok <- LESS_verify X p fuel junk pk m (skipn (j + Z.to_nat mlen) b1) ;;
        Ok (ok - 1, b1, Some mlen)
      else UB
  else UB.
End S.
