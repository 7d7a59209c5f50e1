(** Key generation, signing, verification of the optimised implementation: Optimized_Implementation/common/lib/LESS.c, sign.c.

    avx2/lib and neon/lib are links to common/lib. Functions whose text is that of the reference (see the header of OptCodes.v)
    are the definitions of the reference model applied to the padded arrays. seedtree.c, utils.c, rng.c, fips202.c and
    keccakf1600.c differ from the reference files in casts, includes and layout only. *)
From Verif Require Import Base Params Fq Prim Samplers Monomial Codes SeedTree Utils Less Sign Vec OptCodes.

Section O.
Variable X : prim.
Variable p : params.
Variable q : pads.
Variable i : isa.
Variable fuel : nat.
Variable junk : nat -> nat -> Z.

Let N := pN p.
Let K := pK p.
Let NP := n_pad q.
Let KP := k_pad q.
Let NKP := nk_pad q.

(** Uninitialised locals, as in Less.v; here the content of the arrays of FQ_ELEM (uint8_t) is a byte *)
Definition jbytes (tag n : nat) : list Z := map (fun i => u8 (junk tag i)) (seq 0 n).
Definition jbmat (tag r c : nat) : mat := map (fun i => map (fun j => u8 (junk tag (i * c + j))) (seq 0 c)) (seq 0 r).
Definition jmonomial (tag : nat) : monomial := {| m_coef := jbytes tag NP; m_perm := junk_list junk (S tag) NP |}.
Definition jaction (tag : nat) : action := {| a_perm := junk_list junk tag KP; a_coef := jbytes (S tag) KP |}.
Definition jrref (tag : nat) : rref_mat := {| r_vals := jbmat tag K NKP; r_pos := junk_list junk (S tag) NKP |}.
(** em of generator_RREF (codes.c:117) and buffer of generator_monomial_mul (codes.c:52), different at each call *)
Definition jem (call : nat) : mat := map (fun r => jbytes (101 + 129 * call + r) (32 * num_words p)) (seq 0 128).
Definition jbuf (call : nat) : list Z := jbytes (100 + 129 * call) NP.

(** LESS.c:38-87 *)
Definition LESS_keygen_o (rng : xstate X) (sk pk : list Z) : res (list Z * list Z * xstate X) :=
  let (csk, rng1) := x_squeeze X (prikey_seed_len p) rng in
  sk1 <- wr sk 0 csk ;;
  let seeds := private_seeds X p (p_nk p - 1) (x_init X csk) in
  let (g0seed, rng2) := x_squeeze X (seed_len p) rng1 in
  sk2 <- wr sk1 (off_sk_g0 p) g0seed ;;
  pk1 <- wr pk 0 g0seed ;;
  G0 <- generator_SF_seed_expand X p fuel (jrref 0) g0seed ;;
  fullG <- generator_rref_expand p (jbmat 2 K NP) G0 ;;
  pk2 <- for_ (p_nk p - 1) 0 (fun t pk =>
      sd <- get seeds t ;;
      Qinv <- monomial_mat_seed_expand_prikey X p fuel (jmonomial 4) sd ;;
      Q <- monomial_mat_inv_o p (jmonomial 6) Qinv ;;
      R <- generator_monomial_mul_o p q i (jbuf t) (jbmat 8 K NP) fullG Q ;;
      ' (_, R', piv) <- generator_RREF_o p (jem t) R (repeat 0 NP) ;;
      buf <- rd pk (off_sf p t) (rref_bytes p) ;;
      buf' <- compress_rref p buf R' piv ;;
      wr pk (off_sf p t) buf') pk1 ;;
  Ok (sk2, pk2, rng2).

(** LESS.c:138-148 *)
Definition sign_commit_o (tree : list (list Z)) (salt : list Z) (fullG : mat) : res (hstate X * list action) :=
  ' (h, _, acts, _) <- for_ (pT p) 0 (fun t s =>
      let '(h, V, acts, Qt) := s in
      sd <- get tree (num_leaves p - 1 + t) ;;
      Qt' <- monomial_mat_seed_expand_salt_rnd X p fuel Qt sd salt t ;;
      a <- get acts t ;;
      ' (V', a') <- prepare_digest_input_o p q i (jbuf t) (jem t) V a fullG Qt' ;;
      acts' <- set acts t a' ;;
      Ok (h_absorb X h (concat V'), V', acts', Qt'))
    (h_init X, jbmat 10 K (N - K), repeat (jaction 12) (pT p), jmonomial 14) ;;
  Ok (h, acts).

(** LESS.c:172-187 *)
Definition sign_respond_o (seeds : list (list Z)) (acts : list action) (fws sig : list Z) : res (list Z) :=
  ' (sig', _, _) <- for_ (pT p) 0 (fun t s =>
      let '(sig, emitted, act) := s in
      x <- get fws t ;;
      if x =? 0 then Ok (sig, emitted, act)
      else
        sd <- get seeds (Z.to_nat (x - 1)) ;;
        Q <- monomial_mat_seed_expand_prikey X p fuel (jmonomial 16) sd ;;
        a <- get acts t ;;
        act' <- monomial_compose_action p (jmonomial 18) act Q a ;;
        if (emitted <? pW p)%nat then
          buf <- rd sig (off_monom p emitted) (mono_bytes p) ;;
          buf' <- compress_monom_action p buf act' ;;
          sig' <- wr sig (off_monom p emitted) buf' ;;
          Ok (sig', S emitted, act')
        else UB) (sig, 0%nat, jaction 20) ;;
  Ok sig'.

(** LESS.c:95-200 *)
Definition LESS_sign_o (rng : xstate X) (sk m sig : list Z) : res (list Z * nat * xstate X) :=
  csk <- rd sk 0 (prikey_seed_len p) ;;
  let seeds := private_seeds X p (p_nk p - 1) (x_init X csk) in
  let (ephem, rng1) := x_squeeze X (seed_len p) rng in
  let (salt, rng2) := x_squeeze X (hash_len p) rng1 in
  sig1 <- wr sig 0 salt ;;
  tree <- generate_seed_tree_from_root X p (repeat (repeat 0 (seed_len p)) (num_nodes p)) ephem salt ;;
  g0seed <- rd sk (off_sk_g0 p) (seed_len p) ;;
  G0 <- generator_SF_seed_expand X p fuel (jrref 0) g0seed ;;
  fullG <- generator_rref_expand p (jbmat 2 K NP) G0 ;;
  ' (h, acts) <- sign_commit_o tree salt fullG ;;
  let digest := h_final X (h_absorb X (h_absorb X h m) salt) in
  sig2 <- wr sig1 (off_digest p) digest ;;
  fws <- expand_digest_to_fixed_weight X p fuel (repeat 0 (pT p)) digest ;;
  sig3 <- wr sig2 (off_seeds p) (repeat 0 (Z.to_nat (p_maxbytes p))) ;;
  stg <- rd sig3 (off_seeds p) (seed_storage_len p) ;;
  ' (num, stg1) <- seed_tree_path p tree (to_publish fws) stg ;;
  sig4 <- wr sig3 (off_seeds p) stg1 ;;
  sig5 <- sign_respond_o seeds acts fws sig4 ;;
  stg2 <- rd sig5 (off_seeds p) (seed_storage_len p) ;;
  stg3 <- set stg2 (num * seed_len p) (u8 (Z.of_nat num)) ;;
  sig6 <- wr sig5 (off_seeds p) stg3 ;;
  Ok (sig6, num, rng2).

(** LESS.c:278-289 *)
Definition verify_normalize_o (V G : mat) (piv : list Z) : res mat :=
  ' (V', _) <- for_ N 0 (fun col s =>
      let '(V, placed) := s in
      f <- get piv col ;;
      if f =? 0 then
        (V' <- lex_minimize_o p V (Z.to_nat placed) G col ;; Ok (V', pos_t p (placed + 1)))
      else Ok (V, placed)) (V, 0) ;;
  Ok V'.

(** LESS.c:246-295, with early return 0 ([None]) at 268 *)
Fixpoint verify_loop_o (n t : nat) (pk sig salt : list Z) (tree : list (list Z)) (G0 : rref_mat)
         (fws : list Z) (h : hstate X) (V G : mat) (act disc : action) (used : nat)
  : res (option (hstate X)) :=
  match n with
  | O => Ok (Some h)
  | S n' =>
      x <- get fws t ;;
      if x =? 0 then
        G1 <- generator_rref_expand p G G0 ;;
        sd <- get tree (num_leaves p - 1 + t) ;;
        Q <- monomial_mat_seed_expand_salt_rnd X p fuel
               {| m_coef := repeat 0 NP; m_perm := repeat 0 NP |} sd salt t ;;
        ' (V', disc') <- prepare_digest_input_o p q i (jbuf t) (jem t) V disc G1 Q ;;
        verify_loop_o n' (S t) pk sig salt tree G0 fws (h_absorb X h (concat V')) V' G1 act disc' used
      else
        buf <- rd pk (off_sf p (Z.to_nat (x - 1))) (rref_bytes p) ;;
        G1 <- expand_to_rref_o p q G buf ;;
        if (used <? pW p)%nat then
          ab <- rd sig (off_monom p used) (mono_bytes p) ;;
          act' <- expand_to_monom_action p act ab ;;
          v <- is_monom_action_valid p act' ;;
          if v =? 0 then Ok None
          else
            Gh <- apply_action_to_G_o p q (repeat (repeat 0 NP) K) G1 act' ;;
            ' (_, Gr, piv) <- generator_RREF_o p (jem t) Gh (repeat 0 NP) ;;
            V1 <- verify_normalize_o V Gr piv ;;
            V2 <- lex_sort_cols p V1 ;;
            verify_loop_o n' (S t) pk sig salt tree G0 fws (h_absorb X h (concat V2)) V2 G1 act' disc (S used)
        else UB
  end.

(** LESS.c:212-307; V_array is initialised to 0 here (line 242) *)
Definition LESS_verify_o (pk m sig : list Z) : res Z :=
  digest <- rd sig (off_digest p) (hash_len p) ;;
  fws <- expand_digest_to_fixed_weight X p fuel (repeat 0 (pT p)) digest ;;
  salt <- rd sig 0 (hash_len p) ;;
  ' (_, tree) <- rebuild_seed_tree_leaves X p (repeat (repeat 0 (seed_len p)) (num_nodes p))
                   (to_publish fws) (skipn (off_seeds p) sig) salt ;;
  g0seed <- rd pk 0 (seed_len p) ;;
  G0 <- generator_SF_seed_expand X p fuel (jrref 0) g0seed ;;
  r <- verify_loop_o (pT p) 0 pk sig salt tree G0 fws (h_init X)
         (repeat (repeat 0 (N - K)) K) (jbmat 2 K NP) (jaction 22) (jaction 24) 0 ;;
  match r with
  | None => Ok 0
  | Some h =>
      let recomputed := h_final X (h_absorb X (h_absorb X h m) salt) in
      d <- timing_safe_memcmp recomputed digest (hash_len p) ;;
      Ok (b2z (d =? 0))
  end.

(** *** sign.c (identical to the reference file but for a cast and includes) *)

(** sign.c:32-39 *)
Definition crypto_sign_keypair_o (rng : xstate X) (pk sk : list Z) : res (Z * list Z * list Z * xstate X) :=
  sk0 <- rd sk 0 (sizeof_sk p) ;;
  pk0 <- rd pk 0 (sizeof_pk p) ;;
  ' (sk1, pk1, rng') <- LESS_keygen_o rng sk0 pk0 ;;
  sk' <- wr sk 0 sk1 ;;
  pk' <- wr pk 0 pk1 ;;
  Ok (0, pk', sk', rng').

(** sign.c:46-61 *)
Definition crypto_sign_o (rng : xstate X) (sm m sk : list Z) : res (Z * list Z * Z * xstate X) :=
  let mlen := length m in
  sm1 <- wr sm 0 m ;;
  sg <- rd sm1 mlen (sizeof_sign p) ;;
  ' (sg', num, rng') <- LESS_sign_o rng sk m sg ;;
  sm2 <- wr sm1 mlen sg' ;;
  let sig_len := less_crypto_bytes p (u32 (Z.of_nat num)) in
  Ok (0, sm2, u64 (Z.of_nat mlen + sig_len), rng').

(** sign.c:68-92 *)
Definition crypto_sign_open_o (m0 sm : list Z) (smlen : Z) (pk : list Z) : res (Z * list Z * option Z) :=
  let last := u64 (smlen - 1) in
  if last <? Z.of_nat (length sm) then
    num <- get sm (Z.to_nat last) ;;
    if max_seeds p <=? num then Ok (-1, m0, None)
    else
      let sig_len := less_crypto_bytes p num in
      let mlen := u64 (smlen - sig_len) in
      if (mlen <=? Z.of_nat (length sm)) && (mlen <=? Z.of_nat (length m0)) then
        d <- rd sm 0 (Z.to_nat mlen) ;;
        m1 <- wr m0 0 d ;;
        ok <- LESS_verify_o pk (firstn (Z.to_nat mlen) m1) (skipn (Z.to_nat mlen) sm) ;;
        Ok (ok - 1, m1, Some mlen)
      else UB
  else UB.

End O.
