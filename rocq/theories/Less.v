(** Key generation, signing, verification: Reference_Implementation/lib/LESS.c *)
From Verif Require Import Base Params Fq Prim Samplers Monomial Codes SeedTree Utils.

Section L.
Variable X : prim.
Variable p : params.
(** Iteration bound for the rejection samplers (see [NoFuel]). *)
Variable fuel : nat.
(** Content of uninitialised automatic variables: [junk tag i]. Every theorem is for all [junk]. *)
Variable junk : nat -> nat -> Z.

Let N := pN p.
Let K := pK p.

Definition junk_list (tag n : nat) : list Z := map (junk tag) (seq 0 n).
Definition junk_mat (tag r c : nat) : mat := map (fun i => map (fun j => junk tag (i * c + j)) (seq 0 c)) (seq 0 r).
Definition junk_monomial (tag : nat) : monomial :=
  {| m_coef := junk_list tag N; m_perm := junk_list (S tag) N |}.
Definition junk_action (tag : nat) : action :=
  {| a_perm := junk_list tag K; a_coef := junk_list (S tag) K |}.
Definition junk_rref (tag : nat) : rref_mat :=
  {| r_vals := junk_mat tag K (N - K); r_pos := junk_list (S tag) (N - K) |}.

(** LESS.c:48-53 and 106-111: private_monomial_seeds, one XOF request per seed *)
Fixpoint private_seeds (n : nat) (st : xstate X) : list (list Z) :=
  match n with
  | O => []
  | S n' => let (s, st') := x_squeeze X (prikey_seed_len p) st in s :: private_seeds n' st'
  end.

(** LESS.c:38-87. [sk], [pk] are the output structs (previous content arbitrary), [rng] the
    state of the global generator used by randombytes. *)
Definition LESS_keygen (rng : xstate X) (sk pk : list Z) : res (list Z * list Z * xstate X) :=
  let (csk, rng1) := x_squeeze X (prikey_seed_len p) rng in
  sk1 <- wr sk 0 csk ;;
  let seeds := private_seeds (p_nk p - 1) (x_init X csk) in
  let (g0seed, rng2) := x_squeeze X (seed_len p) rng1 in
  sk2 <- wr sk1 (off_sk_g0 p) g0seed ;;
  pk1 <- wr pk 0 g0seed ;;
  G0 <- generator_SF_seed_expand X p fuel (junk_rref 0) g0seed ;;
  fullG <- generator_rref_expand p (junk_mat 2 K N) G0 ;;
  pk2 <- for_ (p_nk p - 1) 0 (fun i pk =>
      sd <- get seeds i ;;
      Qinv <- monomial_mat_seed_expand_prikey X p fuel (junk_monomial 4) sd ;;
      Q <- monomial_mat_inv p (junk_monomial 6) Qinv ;;
      R <- generator_monomial_mul p (junk_mat 8 K N) fullG Q ;;
      ' (_, R', piv) <- generator_RREF p R (repeat 0 N) ;;
      buf <- rd pk (off_sf p i) (rref_bytes p) ;;
      buf' <- compress_rref p buf R' piv ;;
      wr pk (off_sf p i) buf') pk1 ;;
  Ok (sk2, pk2, rng2).

(** LESS.c:137-146: commitments. State: hash, V_array, Q_bar_actions, Q_tilde. *)
Definition sign_commit (tree : list (list Z)) (salt : list Z) (fullG : mat)
  : res (hstate X * list action) :=
  ' (h, _, acts, _) <- for_ (pT p) 0 (fun i s =>
      let '(h, V, acts, Qt) := s in
      sd <- get tree (num_leaves p - 1 + i) ;;
      Qt' <- monomial_mat_seed_expand_salt_rnd X p fuel Qt sd salt i ;;
      a <- get acts i ;;
      ' (V', a') <- prepare_digest_input p V a fullG Qt' ;;
      acts' <- set acts i a' ;;
      Ok (h_absorb X h (concat V'), V', acts', Qt'))
    (h_init X, junk_mat 10 K (N - K), repeat (junk_action 12) (pT p), junk_monomial 14) ;;
  Ok (h, acts).

(** LESS.c:172-187: responses. State: sig, emitted_monoms, mono_action.
    The guard is the bound of the array monom_actions[W]. *)
Definition sign_respond (seeds : list (list Z)) (acts : list action) (fws sig : list Z)
  : res (list Z) :=
  ' (sig', _, _) <- for_ (pT p) 0 (fun i s =>
      let '(sig, emitted, act) := s in
      x <- get fws i ;;
      if x =? 0 then Ok (sig, emitted, act)
      else
        sd <- get seeds (Z.to_nat (x - 1)) ;;
        Q <- monomial_mat_seed_expand_prikey X p fuel (junk_monomial 16) sd ;;
        a <- get acts i ;;
        act' <- monomial_compose_action p (junk_monomial 18) act Q a ;;
        if (emitted <? pW p)%nat then
          buf <- rd sig (off_monom p emitted) (mono_bytes p) ;;
          buf' <- compress_monom_action p buf act' ;;
          sig' <- wr sig (off_monom p emitted) buf' ;;
          Ok (sig', S emitted, act')
        else UB) (sig, 0%nat, junk_action 20) ;;
  Ok sig'.

(** LESS.c:159-161 and 214-216: !!x *)
Definition to_publish (fws : list Z) : list Z := map (fun x => b2z (negb (x =? 0))) fws.

(** LESS.c:95-191. [sig] is the output struct (previous content arbitrary).
    sig->tree_salt is written once at 116 and read back at 120,141,149; the model uses the
    written value for these reads, and likewise sig->digest at 156.
    Returns the signature, num_seeds_published and the global generator state. *)
Definition LESS_sign (rng : xstate X) (sk m sig : list Z) : res (list Z * nat * xstate X) :=
  csk <- rd sk 0 (prikey_seed_len p) ;;
  let seeds := private_seeds (p_nk p - 1) (x_init X csk) in
  let (ephem, rng1) := x_squeeze X (seed_len p) rng in
  let (salt, rng2) := x_squeeze X (hash_len p) rng1 in
  sig1 <- wr sig 0 salt ;;
  tree <- generate_seed_tree_from_root X p (repeat (repeat 0 (seed_len p)) (num_nodes p)) ephem salt ;;
  g0seed <- rd sk (off_sk_g0 p) (seed_len p) ;;
  G0 <- generator_SF_seed_expand X p fuel (junk_rref 0) g0seed ;;
  fullG <- generator_rref_expand p (junk_mat 2 K N) G0 ;;
  ' (h, acts) <- sign_commit tree salt fullG ;;
  let digest := h_final X (h_absorb X (h_absorb X h m) salt) in
  sig2 <- wr sig1 (off_digest p) digest ;;
  fws <- expand_digest_to_fixed_weight X p fuel (repeat 0 (pT p)) digest ;;
  sig3 <- wr sig2 (off_seeds p) (repeat 0 (Z.to_nat (p_maxbytes p))) ;;
  stg <- rd sig3 (off_seeds p) (seed_storage_len p) ;;
  ' (num, stg1) <- seed_tree_path p tree (to_publish fws) stg ;;
  sig4 <- wr sig3 (off_seeds p) stg1 ;;
  sig5 <- sign_respond seeds acts fws sig4 ;;
  stg2 <- rd sig5 (off_seeds p) (seed_storage_len p) ;;
  stg3 <- set stg2 (num * seed_len p) (u8 (Z.of_nat num)) ;;
  sig6 <- wr sig5 (off_seeds p) stg3 ;;
  Ok (sig6, num, rng2).

(** LESS.c:193-201 *)
Definition timing_safe_memcmp (a b : list Z) (len : nat) : res Z :=
  for_ len 0 (fun i d =>
    x <- get a i ;; y <- get b i ;;
    Ok (Z.lor d (b2z (negb (x =? y))))) 0.

(** LESS.c:269-279: normalise the non-pivot columns into V_array *)
Definition verify_normalize (V G : mat) (piv : list Z) : res mat :=
  ' (V', _) <- for_ N 0 (fun col s =>
      let '(V, placed) := s in
      f <- get piv col ;;
      if f =? 0 then
        (V' <- lex_minimize p V (Z.to_nat placed) G col ;; Ok (V', pos_t p (placed + 1)))
      else Ok (V, placed)) (V, 0) ;;
  Ok V'.

(** LESS.c:237-285, with early return 0 ([None]) at 258.
    State: hash, V_array, tmp_full_G, mono_action, Q_to_discard, employed_monoms.
    The guard is the bound of the array monom_actions[W]. *)
Fixpoint verify_loop (n i : nat) (pk sig salt : list Z) (tree : list (list Z)) (G0 : rref_mat)
         (fws : list Z) (h : hstate X) (V G : mat) (act disc : action) (used : nat)
  : res (option (hstate X)) :=
  match n with
  | O => Ok (Some h)
  | S n' =>
      x <- get fws i ;;
      if x =? 0 then
        G1 <- generator_rref_expand p G G0 ;;
        sd <- get tree (num_leaves p - 1 + i) ;;
        Q <- monomial_mat_seed_expand_salt_rnd X p fuel
               {| m_coef := repeat 0 N; m_perm := repeat 0 N |} sd salt i ;;
        ' (V', disc') <- prepare_digest_input p V disc G1 Q ;;
        verify_loop n' (S i) pk sig salt tree G0 fws (h_absorb X h (concat V')) V' G1 act disc' used
      else
        buf <- rd pk (off_sf p (Z.to_nat (x - 1))) (rref_bytes p) ;;
        G1 <- expand_to_rref p G buf ;;
        if (used <? pW p)%nat then
          ab <- rd sig (off_monom p used) (mono_bytes p) ;;
          act' <- expand_to_monom_action p act ab ;;
          v <- is_monom_action_valid p act' ;;
          if v =? 0 then Ok None
          else
            Gh <- apply_action_to_G p (repeat (repeat 0 N) K) G1 act' ;;
            ' (_, Gr, piv) <- generator_RREF p Gh (repeat 0 N) ;;
            V1 <- verify_normalize V Gr piv ;;
            V2 <- lex_sort_cols p V1 ;;
            verify_loop n' (S i) pk sig salt tree G0 fws (h_absorb X h (concat V2)) V2 G1 act' disc (S used)
        else UB
  end.

(** LESS.c:203-297. [sig] is the memory from the sign_t pointer to the end of the object. *)
Definition LESS_verify (pk m sig : list Z) : res Z :=
  digest <- rd sig (off_digest p) (hash_len p) ;;
  fws <- expand_digest_to_fixed_weight X p fuel (repeat 0 (pT p)) digest ;;
  salt <- rd sig 0 (hash_len p) ;;
  ' (_, tree) <- rebuild_seed_tree_leaves X p (repeat (repeat 0 (seed_len p)) (num_nodes p))
                   (to_publish fws) (skipn (off_seeds p) sig) salt ;;
  g0seed <- rd pk 0 (seed_len p) ;;
  G0 <- generator_SF_seed_expand X p fuel (junk_rref 0) g0seed ;;
  r <- verify_loop (pT p) 0 pk sig salt tree G0 fws (h_init X)
         (junk_mat 10 K (N - K)) (junk_mat 2 K N) (junk_action 22) (junk_action 24) 0 ;;
  match r with
  | None => Ok 0
  | Some h =>
      let recomputed := h_final X (h_absorb X (h_absorb X h m) salt) in
      d <- timing_safe_memcmp recomputed digest (hash_len p) ;;
      Ok (b2z (d =? 0))
  end.

End L.
