(** The seed tree at the level of bytes: Reference_Implementation/lib/seedtree.c with seed_tree as the flat array
    seed_tree[NUM_NODES * SEED_LENGTH_BYTES] and the indices computed in 32 bits, and LESS_sign and LESS_verify on
    top of it, with every read of the signature made from its memory. SeedTree.v and Less.v are the same programs with
    one cell per node. *)
From Verif Require Import Base Params Prim Fq Samplers Utils Monomial Codes SeedTree Less.

(** Conversion of an index to uint32_t. *)
Definition ix (z : Z) : nat := Z.to_nat (u32 z).

(** Read of flags[z] (an index outside the array is never converted to a number of cells). *)
Definition get32 (l : list Z) (z : Z) : res Z := if z <? Z.of_nat (length l) then get l (Z.to_nat z) else UB.

(** seedtree.c:4-6, for an index of type uint32_t; at 95 the int index is converted first. *)
Definition left_child (i : Z) : Z := u32 (2 * i + 1).
Definition right_child (i : Z) : Z := u32 (2 * i + 2).
Definition parent (i : Z) : Z := u32 (i - 1) / 2.

Section SB.
Variable X : prim.
Variable p : params.
Notation L := (num_leaves p).
Notation slen := (seed_len p).

(** seedtree.c:41-49 and 167-172; [input] is csprng_input *)
Definition expand_bytes (input tree : list Z) (i : nat) : res (list Z * list Z) :=
  s <- rd tree (ix (Z.of_nat i * Z.of_nat slen)) slen ;;
  input' <- wr input (hash_len p) s ;;
  let (bs, _) := x_squeeze X (2 * slen) (x_init X input') in
  tree' <- wr tree (ix (left_child (Z.of_nat i) * Z.of_nat slen)) bs ;;
  Ok (input', tree').

(** seedtree.c:25-51; [input0] is the uninitialised array csprng_input *)
Definition generate_tree_bytes (input0 tree root salt : list Z) : res (list Z) :=
  s <- rd salt 0 (hash_len p) ;;
  input <- wr input0 0 s ;;
  r <- rd root 0 slen ;;
  tree0 <- wr tree 0 r ;;
  ' (_, tree') <- for_ (L - 1) 0 (fun i s => let '(input, t) := s in expand_bytes input t i) (input, tree0) ;;
  Ok tree'.

(** seedtree.c:77-99; the loop runs i = L-2 .. 0 *)
Definition compute_flags_bytes (flags indices : list Z) : res (list Z) :=
  d <- rd indices 0 (pT p) ;;
  f0 <- wr flags (L - 1) d ;;
  for_ (L - 1) 0 (fun k fl =>
    let i := Z.of_nat L - 2 - Z.of_nat k in
    a <- get32 fl (left_child i) ;;
    (* the right operand of || is evaluated only if the left one is false *)
    r <- (if a =? 1 then Ok 1 else (b <- get32 fl (right_child i) ;; Ok (b2z (b =? 1)))) ;;
    set fl (Z.to_nat i) r) f0.

(** seedtree.c:103-132; the count is a uint32_t *)
Definition seed_path_bytes (tree indices storage : list Z) : res (Z * list Z) :=
  flags <- compute_flags_bytes (repeat 0 (num_nodes p)) indices ;;
  for_ (num_nodes p) 0 (fun i s =>
    let '(num, stg) := s in
    f <- get flags i ;;
    if f =? 0 then
      (pf <- get32 flags (parent (Z.of_nat i)) ;;
       if pf =? 1 then
         (sd <- rd tree (ix (Z.of_nat i * Z.of_nat slen)) slen ;;
          stg' <- wr stg (ix (num * Z.of_nat slen)) sd ;;
          Ok (u32 (num + 1), stg'))
       else Ok (num, stg))
    else Ok (num, stg)) (0, storage).

(** seedtree.c:136-178; [stored] is the memory starting at stored_seeds *)
Definition rebuild_bytes (input0 tree indices stored salt : list Z) : res (Z * list Z) :=
  flags <- compute_flags_bytes (repeat 0 (num_nodes p)) indices ;;
  s <- rd salt 0 (hash_len p) ;;
  input <- wr input0 0 s ;;
  ' (used, _, tree') <- for_ (num_nodes p) 0 (fun i s =>
    let '(used, input, t) := s in
    f <- get flags i ;;
    if f =? 0 then
      (pf <- get32 flags (parent (Z.of_nat i)) ;;
       ' (used', t') <- (if pf =? 1
          then (sd <- rd stored (ix (Z.of_nat slen * used)) slen ;;
                t' <- wr t (ix (Z.of_nat slen * Z.of_nat i)) sd ;; Ok (u32 (used + 1), t'))
          else Ok (used, t)) ;;
       if (i <? L - 1)%nat
       then (' (input', t'') <- expand_bytes input t' i ;; Ok (used', input', t''))
       else Ok (used', input, t'))
    else Ok (used, input, t)) (0, input, tree) ;;
  Ok (used, tree').

(** LESS.c:121-122, 139 and 222-223, 242: the seed of round [i] *)
Definition leaf_bytes (tree : list Z) (i : nat) : res (list Z) :=
  rd tree (slen * (L - 1) + ix (Z.of_nat i * Z.of_nat slen))%nat slen.

Variable fuel : nat.
Variable junk : nat -> nat -> Z.
Notation N := (pN p).
Notation K := (pK p).

(** The uninitialised array csprng_input of seedtree.c:33 and 149. *)
Definition junk_input (id : nat) : list Z := map (junk id) (seq 0 (hash_len p + slen)).

(** LESS.c:137-146 *)
Definition sign_commit_mem (tree sig : list Z) (fullG : mat) : res (hstate X * list action) :=
  ' (h, _, acts, _) <- for_ (pT p) 0 (fun i s =>
      let '(h, V, acts, Qt) := s in
      sd <- leaf_bytes tree i ;;
      salt <- rd sig 0 (hash_len p) ;;
      Qt' <- monomial_mat_seed_expand_salt_rnd X p fuel Qt sd salt i ;;
      a <- get acts i ;;
      ' (V', a') <- prepare_digest_input p V a fullG Qt' ;;
      acts' <- set acts i a' ;;
      Ok (h_absorb X h (concat V'), V', acts', Qt'))
    (h_init X, junk_mat junk 10 K (N - K), repeat (junk_action p junk 12) (pT p), junk_monomial p junk 14) ;;
  Ok (h, acts).

(** LESS.c:95-191. The salt and the digest are read back from the signature. *)
Definition LESS_sign_mem (rng : xstate X) (sk m sig : list Z) : res (list Z * Z * xstate X) :=
  csk <- rd sk 0 (prikey_seed_len p) ;;
  let seeds := private_seeds X p (p_nk p - 1) (x_init X csk) in
  let (ephem, rng1) := x_squeeze X slen rng in
  let (salt, rng2) := x_squeeze X (hash_len p) rng1 in
  sig1 <- wr sig 0 salt ;;
  tree <- generate_tree_bytes (junk_input 30) (repeat 0 (num_nodes p * slen)) ephem sig1 ;;
  g0seed <- rd sk (off_sk_g0 p) slen ;;
  G0 <- generator_SF_seed_expand X p fuel (junk_rref p junk 0) g0seed ;;
  fullG <- generator_rref_expand p (junk_mat junk 2 K N) G0 ;;
  ' (h, acts) <- sign_commit_mem tree sig1 fullG ;;
  salt2 <- rd sig1 0 (hash_len p) ;;
  sig2 <- wr sig1 (off_digest p) (h_final X (h_absorb X (h_absorb X h m) salt2)) ;;
  digest <- rd sig2 (off_digest p) (hash_len p) ;;
  fws <- expand_digest_to_fixed_weight X p fuel (repeat 0 (pT p)) digest ;;
  sig3 <- wr sig2 (off_seeds p) (repeat 0 (Z.to_nat (p_maxbytes p))) ;;
  stg <- rd sig3 (off_seeds p) (seed_storage_len p) ;;
  ' (num, stg1) <- seed_path_bytes tree (to_publish fws) stg ;;
  sig4 <- wr sig3 (off_seeds p) stg1 ;;
  sig5 <- sign_respond X p fuel junk seeds acts fws sig4 ;;
  stg2 <- rd sig5 (off_seeds p) (seed_storage_len p) ;;
  stg3 <- set stg2 (ix (num * Z.of_nat slen)) (u8 num) ;;
  sig6 <- wr sig5 (off_seeds p) stg3 ;;
  Ok (sig6, num, rng2).

(** LESS.c:237-285, as verify_loop *)
Fixpoint verify_loop_mem (n i : nat) (pk sig tree : list Z) (G0 : rref_mat)
         (fws : list Z) (h : hstate X) (V G : mat) (act disc : action) (used : nat)
  : res (option (hstate X)) :=
  match n with
  | O => Ok (Some h)
  | S n' =>
      x <- get fws i ;;
      if x =? 0 then
        G1 <- generator_rref_expand p G G0 ;;
        sd <- leaf_bytes tree i ;;
        salt <- rd sig 0 (hash_len p) ;;
        Q <- monomial_mat_seed_expand_salt_rnd X p fuel
               {| m_coef := repeat 0 N; m_perm := repeat 0 N |} sd salt i ;;
        ' (V', disc') <- prepare_digest_input p V disc G1 Q ;;
        verify_loop_mem n' (S i) pk sig tree G0 fws (h_absorb X h (concat V')) V' G1 act disc' used
      else
        buf <- rd pk (off_sf p (Z.to_nat (x - 1))) (rref_bytes p) ;;
        G1 <- expand_to_rref p G buf ;;
        if (used <? pW p)%nat then
          ab <- rd sig (off_monom p used) (mono_bytes p) ;;
          act' <- expand_to_monom_action p act ab ;;
          v <- is_monom_action_valid p act' ;;
          if v =? 0 then Ok None
          else
            Gh <- apply_action_to_G p (repeat (repeat 0 N) K) G1 act' ;;
            ' (_, Gr, piv) <- generator_RREF p Gh (repeat 0 N) ;;
            V1 <- verify_normalize p V Gr piv ;;
            V2 <- lex_sort_cols p V1 ;;
            verify_loop_mem n' (S i) pk sig tree G0 fws (h_absorb X h (concat V2)) V2 G1 act' disc (S used)
        else UB
  end.

(** LESS.c:203-297 *)
Definition LESS_verify_mem (pk m sig : list Z) : res Z :=
  d0 <- rd sig (off_digest p) (hash_len p) ;;
  fws <- expand_digest_to_fixed_weight X p fuel (repeat 0 (pT p)) d0 ;;
  ' (_, tree) <- rebuild_bytes (junk_input 32) (repeat 0 (num_nodes p * slen)) (to_publish fws) (skipn (off_seeds p) sig) sig ;;
  g0seed <- rd pk 0 slen ;;
  G0 <- generator_SF_seed_expand X p fuel (junk_rref p junk 0) g0seed ;;
  r <- verify_loop_mem (pT p) 0 pk sig tree G0 fws (h_init X)
         (junk_mat junk 10 K (N - K)) (junk_mat junk 2 K N) (junk_action p junk 22) (junk_action p junk 24) 0 ;;
  match r with
  | None => Ok 0
  | Some h =>
      salt <- rd sig 0 (hash_len p) ;;
      let recomputed := h_final X (h_absorb X (h_absorb X h m) salt) in
      digest <- rd sig (off_digest p) (hash_len p) ;;
      d <- timing_safe_memcmp recomputed digest (hash_len p) ;;
      Ok (b2z (d =? 0))
  end.
End SB.
