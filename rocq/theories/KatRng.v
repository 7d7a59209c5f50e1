(** The random generators of the test vector program: /repo/Utilities/KAT_Generation/lib/KAT_NIST_rng.c.
    AES-256 (OpenSSL, called on lines 136-157) is a parameter [aes key block]. *)
From Verif Require Import Base.

Section R.
Variable aes : list Z -> list Z -> list Z.

(** KAT_NIST_rng.h:46-58. The global [DRBG_ctx] is passed as argument and result. *)
Record drbg_ctx := { d_key : list Z; d_v : list Z; d_reseed : Z }.
Record xof_ctx := { x_buffer : list Z; x_pos : Z; x_remaining : Z; x_key : list Z; x_ctr : list Z }.

(** KAT_NIST_rng.c:136-157, writing 16 bytes at offset [off] of [buffer]. Failures of OpenSSL are left out. *)
Definition KAT_NIST_AES256_ECB (key ctr buffer : list Z) (off : nat) : res (list Z) :=
  k <- rd key 0 32 ;;
  c <- rd ctr 0 16 ;;
  wr buffer off (aes k c).

(** The loops of lines 112-119, 180-187 and 212-219: [n] bytes of a big-endian counter, from index [j] downwards. *)
Fixpoint increment (n j : nat) (v : list Z) : res (list Z) :=
  match n with
  | O => Ok v
  | S n' =>
      b <- get v j ;;
      if b =? 255 then v' <- set v j 0 ;; increment n' (j - 1) v'
      else set v j (u8 (b + 1))
  end.

(** KAT_NIST_rng.c:205-228. [temp0]: the uninitialised array [temp]; [provided]: NULL or 48 bytes. *)
Definition KAT_NIST_AES256_CTR_DRBG_Update (temp0 : list Z) (provided : option (list Z)) (Key V : list Z)
  : res (list Z * list Z) :=
  ' (V1, temp1) <- for_ 3 0 (fun i s =>
      let '(V, temp) := s in
      V' <- increment 16 15 V ;;
      temp' <- KAT_NIST_AES256_ECB Key V' temp (16 * i) ;;
      Ok (V', temp')) (V, temp0) ;;
  temp2 <- match provided with
           | None => Ok temp1
           | Some data => for_ 48 0 (fun i temp =>
               a <- get temp i ;; b <- get data i ;; set temp i (Z.lxor a b)) temp1
           end ;;
  k <- rd temp2 0 32 ;;
  v <- rd temp2 32 16 ;;
  Key' <- wr Key 0 k ;;
  V' <- wr V1 0 v ;;
  Ok (Key', V').

(** KAT_NIST_rng.c:159-172; [security_strength] is not used. *)
Definition KAT_NIST_randombytes_init (temp0 : list Z) (ctx : drbg_ctx) (entropy : list Z) (personalization : option (list Z))
  : res drbg_ctx :=
  sm0 <- rd entropy 0 48 ;;
  sm <- match personalization with
        | None => Ok sm0
        | Some ps => for_ 48 0 (fun i s => a <- get s i ;; b <- get ps i ;; set s i (Z.lxor a b)) sm0
        end ;;
  k0 <- wr (d_key ctx) 0 (repeat 0 32) ;;
  v0 <- wr (d_v ctx) 0 (repeat 0 16) ;;
  ' (k, v) <- KAT_NIST_AES256_CTR_DRBG_Update temp0 (Some sm) k0 v0 ;;
  Ok {| d_key := k; d_v := v; d_reseed := 1 |}.

(** KAT_NIST_rng.c:174-203, the loop of lines 178-198. [i] is an [int]: exceeding 2^31 - 1 is undefined.
    The fuel is the number of bytes still to be written, which every iteration decreases. *)
Fixpoint random_loop (fuel : nat) (key : list Z) (block V x : list Z) (i xlen : Z) : res (list Z * list Z) :=
  if 0 <? xlen then
    match fuel with
    | O => NoFuel
    | S fuel' =>
        V' <- increment 16 15 V ;;
        block' <- KAT_NIST_AES256_ECB key V' block 0 ;;
        if 15 <? xlen then
          b <- rd block' 0 16 ;;
          x' <- wr x (Z.to_nat i) b ;;
          if i + 16 <? 2 ^ 31 then random_loop fuel' key block' V' x' (i + 16) (xlen - 16) else UB
        else
          b <- rd block' 0 (Z.to_nat xlen) ;;
          x' <- wr x (Z.to_nat i) b ;;
          random_loop fuel' key block' V' x' i 0
    end
  else Ok (V, x).

(** KAT_NIST_rng.c:174-203. [block0], [temp0]: uninitialised locals. Returns the status, the output buffer and the context. *)
Definition KAT_NIST_randombytes (block0 temp0 : list Z) (ctx : drbg_ctx) (x : list Z) (xlen : Z) : res (Z * list Z * drbg_ctx) :=
  ' (V, x') <- random_loop (Z.to_nat xlen) (d_key ctx) block0 (d_v ctx) x 0 xlen ;;
  ' (k, v) <- KAT_NIST_AES256_CTR_DRBG_Update temp0 None (d_key ctx) V ;;
  Ok (0, x', {| d_key := k; d_v := v; d_reseed := d_reseed ctx + 1 |}).

(** KAT_NIST_rng.c:50-75. *)
Definition KAT_NIST_seedexpander_init (ctx : xof_ctx) (seed diversifier : list Z) (maxlen : Z) : res (Z * xof_ctx) :=
  if 4294967296 <=? maxlen then Ok (-1, ctx)
  else
    s <- rd seed 0 32 ;;
    key <- wr (x_key ctx) 0 s ;;
    d <- rd diversifier 0 8 ;;
    c0 <- wr (x_ctr ctx) 0 d ;;
    c1 <- set c0 11 (maxlen mod 256) ;;
    let m1 := maxlen / 256 in
    c2 <- set c1 10 (m1 mod 256) ;;
    let m2 := m1 / 256 in
    c3 <- set c2 9 (m2 mod 256) ;;
    let m3 := m2 / 256 in
    c4 <- set c3 8 (m3 mod 256) ;;
    c5 <- wr c4 12 (repeat 0 4) ;;
    buf <- wr (x_buffer ctx) 0 (repeat 0 16) ;;
    Ok (0, {| x_buffer := buf; x_pos := 16; x_remaining := maxlen; x_key := key; x_ctr := c5 |}).

(** KAT_NIST_rng.c:94-123, the loop. It runs at most once more than there are bytes to write. *)
Fixpoint expander_loop (fuel : nat) (ctx : xof_ctx) (x : list Z) (offset xlen : Z) : res (list Z * xof_ctx) :=
  if 0 <? xlen then
    match fuel with
    | O => NoFuel
    | S fuel' =>
        let avail := u32 (16 - x_pos ctx) in
        if xlen <=? avail then
          b <- rd (x_buffer ctx) (Z.to_nat (x_pos ctx)) (Z.to_nat xlen) ;;
          x' <- wr x (Z.to_nat offset) b ;;
          Ok (x', {| x_buffer := x_buffer ctx; x_pos := u32 (x_pos ctx + xlen); x_remaining := x_remaining ctx; x_key := x_key ctx; x_ctr := x_ctr ctx |})
        else
          b <- rd (x_buffer ctx) (Z.to_nat (x_pos ctx)) (Z.to_nat avail) ;;
          x' <- wr x (Z.to_nat offset) b ;;
          buf <- KAT_NIST_AES256_ECB (x_key ctx) (x_ctr ctx) (x_buffer ctx) 0 ;;
          ctr <- increment 4 15 (x_ctr ctx) ;;
          expander_loop fuel' {| x_buffer := buf; x_pos := 0; x_remaining := x_remaining ctx; x_key := x_key ctx; x_ctr := ctr |}
            x' (offset + avail) (xlen - avail)
    end
  else Ok (x, ctx).

(** KAT_NIST_rng.c:83-124. The output pointer is not NULL (line 87). *)
Definition KAT_NIST_seedexpander (ctx : xof_ctx) (x : list Z) (xlen : Z) : res (Z * list Z * xof_ctx) :=
  if x_remaining ctx <=? xlen then Ok (-3, x, ctx)
  else
    let ctx1 := {| x_buffer := x_buffer ctx; x_pos := x_pos ctx; x_remaining := x_remaining ctx - xlen; x_key := x_key ctx; x_ctr := x_ctr ctx |} in
    ' (x', ctx2) <- expander_loop (S (Z.to_nat xlen)) ctx1 x 0 xlen ;;
    Ok (0, x', ctx2).

End R.
