(** Generator matrices: Reference_Implementation/lib/codes.c, include/codes.h *)
From Verif Require Import Base Params Fq Prim Samplers Monomial.

(** include/codes.h generator_mat_t (K x N), normalized_IS_t (K x (N-K)) *)
Definition mat := list (list Z).

(** include/codes.h rref_generator_mat_t: dense columns and their positions *)
Record rref_mat := { r_vals : mat; r_pos : list Z }.

Section C.
Variable X : prim.
Variable p : params.
Let N := pN p.
Let K := pK p.

(** codes.c:34-45 (and the identical rref_generator_monomial_mul, 49-60) *)
Definition generator_monomial_mul (r G : mat) (Q : monomial) : res mat :=
  for_ N 0 (fun src r =>
    for_ K 0 (fun row r =>
      d <- get (m_perm Q) src ;;
      g <- get2 G row src ;;
      c <- get (m_coef Q) src ;;
      set2 r row (Z.to_nat d) (fq_red (g * c))) r) r.

(** codes.c:64-72, on two different rows of the same matrix (see the guard at 101) *)
Definition swap_rows (G : mat) (r s : nat) : res mat :=
  for_ N 0 (fun i G =>
    tmp <- get2 G r i ;;
    y <- get2 G s i ;;
    G1 <- set2 G r i y ;;
    set2 G1 s i tmp) G.

(** codes.c:84-87, inner while *)
Fixpoint pivot_row_scan (fuel : nat) (G : mat) (prow pcol : nat) : res nat :=
  match fuel with
  | O => NoFuel
  | S f =>
      if (prow <? K)%nat then
        (g <- get2 G prow pcol ;;
         if g =? 0 then pivot_row_scan f G (S prow) pcol else Ok prow)
      else Ok prow
  end.

(** codes.c:81-92, outer while; [row] is row_to_reduce *)
Fixpoint pivot_search (fuel : nat) (G : mat) (row prow pcol : nat) : res (nat * nat) :=
  match fuel with
  | O => NoFuel
  | S f =>
      if (pcol <? N)%nat then
        (g <- get2 G prow pcol ;;
         if g =? 0 then
           (prow' <- pivot_row_scan (S K) G prow pcol ;;
            if (K <=? prow')%nat then pivot_search f G row row (S pcol)
            else pivot_search f G row prow' pcol)
         else Ok (prow, pcol))
      else Ok (prow, pcol)
  end.

(** codes.c:112-115 *)
Definition rescale_row (G : mat) (row pcol : nat) (sf : Z) : res mat :=
  for_ (N - pcol) pcol (fun i G =>
    g <- get2 G row i ;;
    set2 G row i (fq_red (sf * g))) G.

(** codes.c:124-133, the inner loop for one row; tmp is a uint16_t *)
Definition eliminate_row (G : mat) (row r : nat) (mult : Z) : res mat :=
  for_ N 0 (fun c G =>
    pv <- get2 G row c ;;
    let tmp := fq_red (mult * pv) in
    g <- get2 G r c ;;
    let tmp2 := u16 (127 + g - tmp) in
    set2 G r c (u8 (fq_red tmp2))) G.

(** codes.c:119-135 *)
Definition eliminate_rows (G : mat) (row pcol : nat) : res mat :=
  for_ K 0 (fun r G =>
    if Nat.eqb r row then Ok G
    else (mult <- get2 G r pcol ;; eliminate_row G row r mult)) G.

(** codes.c:77-137: the outer loop, [n] rows remaining, with early return 0 *)
Fixpoint rref_rows (n row : nat) (G : mat) (piv : list Z) : res (Z * mat * list Z) :=
  match n with
  | O => Ok (1, G, piv)
  | S n' =>
      ' (prow, pcol) <- pivot_search (N + 2) G row row row ;;
      if (N <=? pcol)%nat then Ok (0, G, piv)
      else
        piv' <- set piv pcol 1 ;;
        G1 <- (if Nat.eqb row prow then Ok G else swap_rows G row prow) ;;
        g <- get2 G1 row pcol ;;
        G2 <- rescale_row G1 row pcol (fq_inv g) ;;
        G3 <- eliminate_rows G2 row pcol ;;
        rref_rows n' (S row) G3 piv'
  end.

(** codes.c:74-138; returns the return value, the matrix and is_pivot_column *)
Definition generator_RREF (G : mat) (piv : list Z) : res (Z * mat * list Z) :=
  rref_rows K 0 G piv.

(** codes.c:142-166. [first_nonzero_idx] is computed by the C code but never used. *)
Definition lex_minimize (V : mat) (dst : nat) (G : mat) (col : nat) : res mat :=
  ' (_, fval, _) <- for_ K 0 (fun i s =>
      let '(fidx, fval, found) := s in
      g <- get2 G i col ;;
      let hit := b2z (negb (g =? 0) && negb found) in
      let miss := b2z ((g =? 0) || found) in
      let fidx' := pos_t p (Z.of_nat i * hit + fidx * miss) in
      let fval' := u8 (g * hit + fval * miss) in
      Ok (fidx', fval', found || negb (g =? 0))) (0, 0, false) ;;
  let inv_first := fq_inv fval in
  for_ K 0 (fun i V =>
    g <- get2 G i col ;;
    set2 V i dst (fq_red (g * inv_first))) V.

(** codes.c:169-179 *)
Definition column_swap (V : mat) (c1 c2 : nat) : res mat :=
  for_ K 0 (fun i V =>
    tmp <- get2 V i c2 ;;
    y <- get2 V i c1 ;;
    V1 <- set2 V i c2 y ;;
    set2 V1 i c1 (u8 (pos_t p tmp))) V.

(** codes.c:184-196: [n] = K - i rows left *)
Fixpoint lex_compare_from (n i : nat) (V : mat) (col : nat) (pivot : list Z) : res Z :=
  match n with
  | O => Ok 0
  | S n' =>
      v <- get2 V i col ;;
      pv <- get pivot i ;;
      if v - pv =? 0 then lex_compare_from n' (S i) V col pivot
      else if v - pv >? 0 then Ok (-1) else Ok 1
  end.
Definition lex_compare_with_pivot (V : mat) (col : Z) (pivot : list Z) : res Z :=
  lex_compare_from K 0 V (Z.to_nat col) pivot.

(** codes.c:207-209 and 210-212: do { i++ } while (...), do { j-- } while (...)
    on POSITION_T counters, which wrap around *)
Fixpoint scan_up (fuel : nat) (V : mat) (i : Z) (pivot : list Z) : res Z :=
  match fuel with
  | O => NoFuel
  | S f =>
      let i' := pos_t p (i + 1) in
      c <- lex_compare_with_pivot V i' pivot ;;
      if c =? 1 then scan_up f V i' pivot else Ok i'
  end.
Fixpoint scan_down (fuel : nat) (V : mat) (j : Z) (pivot : list Z) : res Z :=
  match fuel with
  | O => NoFuel
  | S f =>
      let j' := pos_t p (j - 1) in
      c <- lex_compare_with_pivot V j' pivot ;;
      if c =? -1 then scan_down f V j' pivot else Ok j'
  end.

(** codes.c:206-217 *)
Fixpoint hoare_loop (fuel : nat) (V : mat) (i j : Z) (pivot : list Z) : res (Z * mat) :=
  match fuel with
  | O => NoFuel
  | S f =>
      i' <- scan_up (N + 2) V i pivot ;;
      j' <- scan_down (N + 2) V j pivot ;;
      if i' >=? j' then Ok (j', V)
      else (V' <- column_swap V (Z.to_nat i') (Z.to_nat j') ;; hoare_loop f V' i' j' pivot)
  end.

(** codes.c:198-219 *)
Definition Hoare_partition (V : mat) (col_l col_h : Z) : res (Z * mat) :=
  pivot <- for_ K 0 (fun i pv =>
     v <- get2 V i (Z.to_nat col_l) ;; set pv i v) (repeat 0 K) ;;
  hoare_loop (N + 2) V (pos_t p (col_l - 1)) (pos_t p (col_h + 1)) pivot.

(** codes.c:222-230; start and end are ints, converted to POSITION_T at the call.
    The fuel bounds the recursion depth. *)
Fixpoint col_lex_quicksort (fuel : nat) (V : mat) (start end_ : Z) : res mat :=
  match fuel with
  | O => NoFuel
  | S f =>
      if start <? end_ then
        ' (j, V1) <- Hoare_partition V (pos_t p start) (pos_t p end_) ;;
        V2 <- col_lex_quicksort f V1 start j ;;
        col_lex_quicksort f V2 (j + 1) end_
      else Ok V
  end.

(** codes.c:234-236 *)
Definition lex_sort_cols (V : mat) : res mat :=
  col_lex_quicksort (N + 1) V 0 (Z.of_nat N - Z.of_nat K - 1).

(** codes.c:257-263: position and coefficient of the row of Q_in landing on [col] *)
Definition extract_col (Q : monomial) (col : nat) : res (Z * Z) :=
  for_ N 0 (fun i s =>
    pi <- get (m_perm Q) i ;;
    if pi =? Z.of_nat col then (c <- get (m_coef Q) i ;; Ok (pos_t p (Z.of_nat i), c))
    else Ok s) (0, 0).

(** codes.c:239-279 (ASSERT at 251 is compiled out by NDEBUG).
    Returns the new contents of V and Q_bar_IS. *)
Definition prepare_digest_input (V : mat) (Qbar : action) (G : mat) (Q : monomial)
  : res (mat * action) :=
  G1 <- generator_monomial_mul (repeat (repeat 0 N) K) G Q ;;
  ' (_, Gd, piv) <- generator_RREF G1 (repeat 0 N) ;;
  ' (V1, Qbar1, _, _) <- for_ N 0 (fun col s =>
      let '(V, Qb, piv_idx, non_piv_idx) := s in
      ' (row_idx, val) <- extract_col Q col ;;
      f <- get piv col ;;
      if f =? 0 then
        (V' <- lex_minimize V (Z.to_nat (pos_t p (non_piv_idx - Z.of_nat K))) Gd col ;;
         Ok (V', Qb, piv_idx, pos_t p (non_piv_idx + 1)))
      else
        (perm <- set (a_perm Qb) (Z.to_nat piv_idx) row_idx ;;
         coef <- set (a_coef Qb) (Z.to_nat piv_idx) (u8 val) ;;
         Ok (V, {| a_perm := perm; a_coef := coef |}, pos_t p (piv_idx + 1), non_piv_idx)))
    (V, Qbar, 0, pos_t p (Z.of_nat K)) ;;
  V2 <- lex_sort_cols V1 ;;
  Ok (V2, Qbar1).

(** codes.c:283-308 *)
Definition apply_action_to_G (r G : mat) (Q : action) : res mat :=
  ' (r1, flags) <- for_ K 0 (fun dst s =>
      let '(r, fl) := s in
      src <- get (a_perm Q) dst ;;
      r' <- for_ K 0 (fun i r =>
          g <- get2 G i (Z.to_nat src) ;;
          c <- get (a_coef Q) dst ;;
          set2 r i dst (fq_red (g * c))) r ;;
      fl' <- set fl (Z.to_nat src) 1 ;;
      Ok (r', fl')) (r, repeat 0 N) ;;
  ' (r2, _) <- for_ N 0 (fun src s =>
      let '(r, dst) := s in
      f <- get flags src ;;
      if f =? 0 then
        (r' <- for_ K 0 (fun i r => g <- get2 G i src ;; set2 r i dst g) r ;;
         Ok (r', S dst))
      else Ok (r, dst)) (r1, K) ;;
  Ok r2.

(** codes.c:312-326 *)
Definition generator_rref_compact (c : rref_mat) (full : mat) (piv : list Z) : res rref_mat :=
  ' (c', _) <- for_ N 0 (fun src s =>
      let '(c, dst) := s in
      f <- get piv src ;;
      if f =? 0 then
        (v <- for_ K 0 (fun row v => g <- get2 full row src ;; set2 v row dst g) (r_vals c) ;;
         ps <- set (r_pos c) dst (pos_t p (Z.of_nat src)) ;;
         Ok ({| r_vals := v; r_pos := ps |}, S dst))
      else Ok (c, dst)) (c, 0%nat) ;;
  Ok c'.

(** codes.c:334-341 and 346-348: [cnt] flags starting at [base] packed in a byte
    (the C expressions are the unrolled sums) *)
Fixpoint pack_flags (cnt k base : nat) (piv : list Z) : res Z :=
  match cnt with
  | O => Ok 0
  | S c =>
      f <- get piv (base + k) ;;
      r <- pack_flags c (S k) base piv ;;
      Ok (Z.lor (Z.shiftl f (Z.of_nat k)) r)
  end.

(** codes.c:344-353 and 432-442: the 4 trailing flags exist in categories 1 and 5 *)
Definition has_tail : bool := match p_cat p with Cat3 => false | _ => true end.

(** codes.c:330-415; [buf] is the destination of RREF_MAT_PACKEDBYTES bytes *)
Definition compress_rref (buf : list Z) (full : mat) (piv : list Z) : res (list Z) :=
  b1 <- for_ (N / 8) 0 (fun cb b =>
      v <- pack_flags 8 0 (8 * cb) piv ;; set b cb (u8 v)) buf ;;
  ' (b2, idx) <- (if has_tail
      then (v <- pack_flags 4 0 (N - 4) piv ;;
            b <- set b1 (N / 8) (u8 v) ;; Ok (b, S (N / 8)))
      else Ok (b1, N / 8)%nat) ;;
  ' (b3, _, _) <- for_ K 0 (fun row s =>
      for_ N 0 (fun col s =>
        let '(b, idx, st) := s in
        f <- get piv col ;;
        if f =? 0 then
          (v <- get2 full row col ;;
           ' (b', idx') <- enc7_step st b idx v ;;
           Ok (b', idx', next_state 7 st))
        else Ok (b, idx, st)) s) (b2, idx, 0%nat) ;;
  Ok b3.

(** codes.c:422-429 and 434-437: [cnt] flags starting at [base] unpacked from byte [c] *)
Fixpoint unpack_flags (cnt k base : nat) (c : Z) (piv : list Z) : res (list Z) :=
  match cnt with
  | O => Ok piv
  | S n =>
      piv' <- set piv (base + k) (Z.land (Z.shiftr c (Z.of_nat k)) 1) ;;
      unpack_flags n (S k) base c piv'
  end.

(** codes.c:418-517 *)
Definition expand_to_rref (full : mat) (buf : list Z) : res mat :=
  piv1 <- for_ (N / 8) 0 (fun cb piv =>
      c <- get buf cb ;; unpack_flags 8 0 (8 * cb) c piv) (repeat 0 N) ;;
  ' (piv, idx) <- (if has_tail
      then (c <- get buf (N / 8) ;;
            pv <- unpack_flags 4 0 (N - 4) c piv1 ;; Ok (pv, S (N / 8)))
      else Ok (piv1, N / 8)%nat) ;;
  ' (full', _, _) <- for_ K 0 (fun row s =>
      let '(fl, idx, st) := s in
      ' (fl', idx', st', _) <- for_ N 0 (fun col s =>
        let '(fl, idx, st, pidx) := s in
        f <- get piv col ;;
        if f =? 0 then
          (' (v, idx') <- dec7_step st buf idx ;;
           fl' <- set2 fl row col v ;;
           Ok (fl', idx', next_state 7 st, pidx))
        else
          (fl' <- set2 fl row col (b2z (Nat.eqb row pidx)) ;;
           Ok (fl', idx, st, S pidx))) (fl, idx, st, 0%nat) ;;
      Ok (fl', idx', st')) (full, idx, 0%nat) ;;
  Ok full'.

(** codes.c:521-540 *)
Definition generator_rref_expand (full : mat) (c : rref_mat) : res mat :=
  ' (full', _) <- for_ N 0 (fun col s =>
      let '(fl, placed) := s in
      dense <- (if (placed <? N - K)%nat
                then (ps <- get (r_pos c) placed ;; Ok (Z.of_nat col =? ps))
                else Ok false) ;;
      if (dense : bool) then
        (fl' <- for_ K 0 (fun row fl =>
            v <- get2 (r_vals c) row placed ;; set2 fl row col v) fl ;;
         Ok (fl', S placed))
      else
        (fl' <- for_ K 0 (fun row fl =>
            set2 fl row col (b2z (Z.of_nat row =? Z.of_nat col - Z.of_nat placed))) fl ;;
         Ok (fl', placed))) (full, 0%nat) ;;
  Ok full'.

(** codes.c:550-563 *)
Definition generator_SF_seed_expand (fuel : nat) (r : rref_mat) (seed : list Z) : res rref_mat :=
  let st := x_init X seed in
  ' (vals, _) <- for_ K 0 (fun i s =>
      let '(v, st) := s in
      row <- get v i ;;
      ' (row', st') <- rand_range_q_state_elements X fuel (N - K) st row ;;
      v' <- set v i row' ;;
      Ok (v', st')) (r_vals r, st) ;;
  pos <- for_ (N - K) 0 (fun i ps => set ps i (pos_t p (Z.of_nat (i + K)))) (r_pos r) ;;
  Ok {| r_vals := vals; r_pos := pos |}.

(** codes.c:543-548, from the global state *)
Definition generator_rnd (fuel : nat) (r : mat) (st : xstate X) : res (mat * xstate X) :=
  for_ K 0 (fun i s =>
      let '(v, st) := s in
      row <- get v i ;;
      ' (row', st') <- rand_range_q_state_elements X fuel N st row ;;
      v' <- set v i row' ;;
      Ok (v', st')) (r, st).

End C.
