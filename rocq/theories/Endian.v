(** The same program on a big-endian host. The functions below are those of [Samplers], [Monomial], [Codes], [Utils] and [Less]
    that depend on the order of the bytes of an integer in memory; they differ from those only in this order. All other
    functions handle single bytes. *)
From Verif Require Import Base Params Fq Prim Samplers Monomial Codes SeedTree Utils Less.

(** The integer stored in these bytes. *)
Definition be_val (bs : list Z) : Z := le_val (rev bs).

Section B.
Variable X : prim.
Variable p : params.
Let N := pN p.
Let K := pK p.

(** fq_arith.h:54-62: [word] is filled through a pointer to bytes. *)
Fixpoint rand_loop_big (fuel : nat) (minv span req : Z) (num : nat)
         (st : xstate X) (count : nat) (buf : list Z) : res (list Z * xstate X) :=
  match fuel with
  | O => NoFuel
  | S f =>
      let (bs, st') := x_squeeze X 8 st in
      ' (fin, (count', buf')) <-
        rand_chunks (Z.to_nat (64 / req)) minv span req num (be_val bs) count buf ;;
      if fin then Ok (buf', st') else rand_loop_big f minv span req num st' count' buf'
  end.
Definition def_rand_big (minv maxv : Z) (fuel num : nat) (st : xstate X) (buf : list Z) :=
  rand_loop_big fuel minv (maxv - minv) (bits_to_represent (maxv - minv)) num st 0 buf.

(** monomial.c:36-52: rand_u32 is filled through a pointer to bytes. *)
Definition words32_big (n : nat) (bs : list Z) : list Z :=
  map (fun i => be_val (firstn 4 (skipn (4 * i) bs))) (seq 0 n).

Definition yt_shuffle_state_big (st : xstate X) (perm : list Z)
  : res (list Z * xstate X) :=
  let (bs, st') := x_squeeze X (4 * pN p) st in
  rand_u32 <- for_ (pN p - 1) 0 (fun i r =>
      x <- get r i ;;
      set r i (u32 (Z.of_nat i + x mod (Z.of_nat (pN p) - Z.of_nat i)))) (words32_big (pN p) bs) ;;
  perm' <- for_ (pN p - 1) 0 (fun i pm =>
      tmp <- get pm i ;;
      r <- get rand_u32 i ;;
      y <- get pm (Z.to_nat r) ;;
      pm1 <- set pm i y ;;
      set pm1 (Z.to_nat r) tmp) perm ;;
  Ok (perm', st').

(** monomial.c:74-76: the round index is copied as it is stored. *)
Definition round_bytes_big (i : nat) : list Z := rev (le_bytes 2 (u16 (Z.of_nat i))).

(** monomial.c:62-101 *)
Definition monomial_expand_big (fuel : nat) (r : monomial) (input : list Z) : res monomial :=
  let st := x_init X input in
  ' (coefs, st1) <- def_rand_big 1 126 fuel N st (m_coef r) ;;
  perm <- for_ N 0 (fun i pm => set pm i (pos_t p (Z.of_nat i))) (m_perm r) ;;
  ' (perm', _) <- yt_shuffle_state_big st1 perm ;;
  Ok {| m_coef := coefs; m_perm := perm' |}.
Definition monomial_mat_seed_expand_salt_rnd_big (fuel : nat) (r : monomial)
           (seed salt : list Z) (round : nat) : res monomial :=
  monomial_expand_big fuel r (seed ++ salt ++ round_bytes_big round).
Definition monomial_mat_seed_expand_prikey_big (fuel : nat) (r : monomial) (seed : list Z)
  : res monomial :=
  monomial_expand_big fuel r seed.

(** codes.c:550-563 *)
Definition generator_SF_seed_expand_big (fuel : nat) (r : rref_mat) (seed : list Z) : res rref_mat :=
  let st := x_init X seed in
  ' (vals, _) <- for_ K 0 (fun i s =>
      let '(v, st) := s in
      row <- get v i ;;
      ' (row', st') <- def_rand_big 0 126 fuel (N - K) st row ;;
      v' <- set v i row' ;;
      Ok (v', st')) (r_vals r, st) ;;
  pos <- for_ (N - K) 0 (fun i ps => set ps i (pos_t p (Z.of_nat (i + K)))) (r_pos r) ;;
  Ok {| r_vals := vals; r_pos := pos |}.

(** utils.c:36-62: rnd_buf is filled through a pointer to bytes. *)
Fixpoint draw_position_big (fuel : nat) (fws : list Z) (st : xstate X) : res (Z * Z * xstate X) :=
  match fuel with
  | O => NoFuel
  | S f =>
      let (bs, st') := x_squeeze X 2 st in
      let rnd := be_val bs in
      let value := u8 (Z.land rnd (2 ^ (kp_bits p) - 1)) in
      let pos := pos_t p (Z.shiftr rnd (kp_bits p)) in
      let pos := pos_t p (Z.land pos (2 ^ (pos_bits p) - 1)) in
      if (Z.of_nat (p_nk p) <=? value) || (Z.of_nat (pT p) <=? pos)
      then draw_position_big f fws st'
      else
        (x <- get fws (Z.to_nat pos) ;;
         if negb (x =? 0) then draw_position_big f fws st'
         else Ok (value, pos, st'))
  end.
Fixpoint place_elements_big (fuel dfuel : nat) (placed : nat) (fws : list Z) (st : xstate X)
  : res (list Z) :=
  match fuel with
  | O => NoFuel
  | S f =>
      if (placed <? pW p)%nat then
        ' (value, pos, st') <- draw_position_big dfuel fws st ;;
        fws' <- set fws (Z.to_nat pos) value ;;
        place_elements_big f dfuel (if value =? 0 then placed else S placed) fws' st'
      else Ok fws
  end.
Definition expand_digest_to_fixed_weight_big (fuel : nat) (fws digest : list Z) : res (list Z) :=
  place_elements_big fuel fuel 0 fws (x_init X digest).

Variable fuel : nat.
Variable junk : nat -> nat -> Z.

(** LESS.c *)
Definition LESS_keygen_big (rng : xstate X) (sk pk : list Z) : res (list Z * list Z * xstate X) :=
  let (csk, rng1) := x_squeeze X (prikey_seed_len p) rng in
  sk1 <- wr sk 0 csk ;;
  let seeds := private_seeds X p (p_nk p - 1) (x_init X csk) in
  let (g0seed, rng2) := x_squeeze X (seed_len p) rng1 in
  sk2 <- wr sk1 (off_sk_g0 p) g0seed ;;
  pk1 <- wr pk 0 g0seed ;;
  G0 <- generator_SF_seed_expand_big fuel (junk_rref p junk 0) g0seed ;;
  fullG <- generator_rref_expand p (junk_mat junk 2 K N) G0 ;;
  pk2 <- for_ (p_nk p - 1) 0 (fun i pk =>
      sd <- get seeds i ;;
      Qinv <- monomial_mat_seed_expand_prikey_big fuel (junk_monomial p junk 4) sd ;;
      Q <- monomial_mat_inv p (junk_monomial p junk 6) Qinv ;;
      R <- generator_monomial_mul p (junk_mat junk 8 K N) fullG Q ;;
      ' (_, R', piv) <- generator_RREF p R (repeat 0 N) ;;
      buf <- rd pk (off_sf p i) (rref_bytes p) ;;
      buf' <- compress_rref p buf R' piv ;;
      wr pk (off_sf p i) buf') pk1 ;;
  Ok (sk2, pk2, rng2).
Definition sign_commit_big (tree : list (list Z)) (salt : list Z) (fullG : mat)
  : res (hstate X * list action) :=
  ' (h, _, acts, _) <- for_ (pT p) 0 (fun i s =>
      let '(h, V, acts, Qt) := s in
      sd <- get tree (num_leaves p - 1 + i) ;;
      Qt' <- monomial_mat_seed_expand_salt_rnd_big fuel Qt sd salt i ;;
      a <- get acts i ;;
      ' (V', a') <- prepare_digest_input p V a fullG Qt' ;;
      acts' <- set acts i a' ;;
      Ok (h_absorb X h (concat V'), V', acts', Qt'))
    (h_init X, junk_mat junk 10 K (N - K), repeat (junk_action p junk 12) (pT p), junk_monomial p junk 14) ;;
  Ok (h, acts).
Definition sign_respond_big (seeds : list (list Z)) (acts : list action) (fws sig : list Z)
  : res (list Z) :=
  ' (sig', _, _) <- for_ (pT p) 0 (fun i s =>
      let '(sig, emitted, act) := s in
      x <- get fws i ;;
      if x =? 0 then Ok (sig, emitted, act)
      else
        sd <- get seeds (Z.to_nat (x - 1)) ;;
        Q <- monomial_mat_seed_expand_prikey_big fuel (junk_monomial p junk 16) sd ;;
        a <- get acts i ;;
        act' <- monomial_compose_action p (junk_monomial p junk 18) act Q a ;;
        if (emitted <? pW p)%nat then
          buf <- rd sig (off_monom p emitted) (mono_bytes p) ;;
          buf' <- compress_monom_action p buf act' ;;
          sig' <- wr sig (off_monom p emitted) buf' ;;
          Ok (sig', S emitted, act')
        else UB) (sig, 0%nat, junk_action p junk 20) ;;
  Ok sig'.
Definition LESS_sign_big (rng : xstate X) (sk m sig : list Z) : res (list Z * nat * xstate X) :=
  csk <- rd sk 0 (prikey_seed_len p) ;;
  let seeds := private_seeds X p (p_nk p - 1) (x_init X csk) in
  let (ephem, rng1) := x_squeeze X (seed_len p) rng in
  let (salt, rng2) := x_squeeze X (hash_len p) rng1 in
  sig1 <- wr sig 0 salt ;;
  tree <- generate_seed_tree_from_root X p (repeat (repeat 0 (seed_len p)) (num_nodes p)) ephem salt ;;
  g0seed <- rd sk (off_sk_g0 p) (seed_len p) ;;
  G0 <- generator_SF_seed_expand_big fuel (junk_rref p junk 0) g0seed ;;
  fullG <- generator_rref_expand p (junk_mat junk 2 K N) G0 ;;
  ' (h, acts) <- sign_commit_big tree salt fullG ;;
  let digest := h_final X (h_absorb X (h_absorb X h m) salt) in
  sig2 <- wr sig1 (off_digest p) digest ;;
  fws <- expand_digest_to_fixed_weight_big fuel (repeat 0 (pT p)) digest ;;
  sig3 <- wr sig2 (off_seeds p) (repeat 0 (Z.to_nat (p_maxbytes p))) ;;
  stg <- rd sig3 (off_seeds p) (seed_storage_len p) ;;
  ' (num, stg1) <- seed_tree_path p tree (to_publish fws) stg ;;
  sig4 <- wr sig3 (off_seeds p) stg1 ;;
  sig5 <- sign_respond_big seeds acts fws sig4 ;;
  stg2 <- rd sig5 (off_seeds p) (seed_storage_len p) ;;
  stg3 <- set stg2 (num * seed_len p) (u8 (Z.of_nat num)) ;;
  sig6 <- wr sig5 (off_seeds p) stg3 ;;
  Ok (sig6, num, rng2).
Fixpoint verify_loop_big (n i : nat) (pk sig salt : list Z) (tree : list (list Z)) (G0 : rref_mat)
         (fws : list Z) (h : hstate X) (V G : mat) (act disc : action) (used : nat)
  : res (option (hstate X)) :=
  match n with
  | O => Ok (Some h)
  | S n' =>
      x <- get fws i ;;
      if x =? 0 then
        G1 <- generator_rref_expand p G G0 ;;
        sd <- get tree (num_leaves p - 1 + i) ;;
        Q <- monomial_mat_seed_expand_salt_rnd_big fuel
               {| m_coef := repeat 0 N; m_perm := repeat 0 N |} sd salt i ;;
        ' (V', disc') <- prepare_digest_input p V disc G1 Q ;;
        verify_loop_big n' (S i) pk sig salt tree G0 fws (h_absorb X h (concat V')) V' G1 act disc' used
      else
        buf <- rd pk (off_sf p (Z.to_nat (x - 1))) (rref_bytes p) ;;
        G1 <- expand_to_rref p G buf ;;
        if (used <? pW p)%nat then
          ab <- rd sig (off_monom p used) (mono_bytes p) ;;
          act' <- expand_to_monom_action p act ab ;;
          v <- is_monom_action_valid p act' ;;
          if v =? 0 then Ok None
          else
            Gh <- apply_action_to_G p (repeat (repeat 0 N) K) G1 act' ;;
            ' (_, Gr, piv) <- generator_RREF p Gh (repeat 0 N) ;;
            V1 <- verify_normalize p V Gr piv ;;
            V2 <- lex_sort_cols p V1 ;;
            verify_loop_big n' (S i) pk sig salt tree G0 fws (h_absorb X h (concat V2)) V2 G1 act' disc (S used)
        else UB
  end.
Definition LESS_verify_big (pk m sig : list Z) : res Z :=
  digest <- rd sig (off_digest p) (hash_len p) ;;
  fws <- expand_digest_to_fixed_weight_big fuel (repeat 0 (pT p)) digest ;;
  salt <- rd sig 0 (hash_len p) ;;
  ' (_, tree) <- rebuild_seed_tree_leaves X p (repeat (repeat 0 (seed_len p)) (num_nodes p))
                   (to_publish fws) (skipn (off_seeds p) sig) salt ;;
  g0seed <- rd pk 0 (seed_len p) ;;
  G0 <- generator_SF_seed_expand_big fuel (junk_rref p junk 0) g0seed ;;
  r <- verify_loop_big (pT p) 0 pk sig salt tree G0 fws (h_init X)
         (junk_mat junk 10 K (N - K)) (junk_mat junk 2 K N) (junk_action p junk 22) (junk_action p junk 24) 0 ;;
  match r with
  | None => Ok 0
  | Some h =>
      let recomputed := h_final X (h_absorb X (h_absorb X h m) salt) in
      d <- timing_safe_memcmp recomputed digest (hash_len p) ;;
      Ok (b2z (d =? 0))
  end.
End B.
