(** Optimised generator matrices: Optimized_Implementation/common/include/fq_arith.h, common/lib/codes.c, common/lib/monomial.c.

    The structures are those of the reference with longer rows (common/include/codes.h:32-40, monomial_mat.h:51-70); the
    functions whose text differs from the reference only in index types or layout are not modelled again, the definitions
    of Monomial.v and Codes.v being applied to the longer arrays. *)
From Verif Require Import Base Params Fq Prim Samplers Monomial Codes Vec.

(** *** common/include/fq_arith.h *)

(** fq_arith.h:93-102; lo and hi are uint16_t *)
Definition br_mul (a b : Z) : Z :=
  let lo := u16 (a * b) in
  let hi := Z.shiftr lo 7 in
  let lo := u16 (lo + hi) in
  let hi := u16 (Z.shiftl hi 7) in
  u8 (lo - hi).

(** fq_arith.h:107-116; uint8_t arithmetic *)
Definition br_red (a : Z) : Z :=
  let t := Z.shiftr a 7 in
  let t := Z.land t 127 in
  let a := u8 (a + t) in
  Z.land a 127.

(** Optimized parameters.h:35, 84, 94, 117, 127: the number of values of FQ_TRIPLEPREC, which is uint16_t in category 3
    BALANCED and uint32_t in the six other sets *)
Definition triple_mod (p : params) : Z :=
  match p_cat p with
  | Cat3 => if (p_nk p =? 2)%nat then 65536 else 4294967296
  | _ => 4294967296
  end.

(** fq_arith.h:121-132, called nowhere; x and y are uint16_t, a is an FQ_TRIPLEPREC with [m] values. The sums and shifts
    are of int or uint32_t and do not wrap before they are stored. *)
Definition br_red16 (m x : Z) : Z :=
  let a := (x + 1) mod m in
  let a := (Z.shiftl a 7 + a) mod m in
  let y := u16 (Z.shiftr a 14) in
  let y := u16 (Z.shiftl y 7 - y) in
  u16 (x - y).

(** fq_arith.h:151-157, as [fq_pow_loop] *)
Fixpoint br_pow_loop (e : positive) (accum xlift : Z) : Z :=
  match e with
  | xH => br_red (br_mul accum xlift)
  | xO e' => br_pow_loop e' accum (br_red (br_mul xlift xlift))
  | xI e' => br_pow_loop e' (br_red (br_mul accum xlift)) (br_red (br_mul xlift xlift))
  end.

(** fq_arith.h:142-159 *)
Definition br_inv (x : Z) : Z := br_pow_loop 125 1 (u8 x).

(** common/include/parameters.h:41-43, 73-75, 106-108: N_pad, K_pad, N_K_pad *)
Record pads := { n_pad : nat; k_pad : nat; nk_pad : nat }.
Definition less_pads (c : category) : pads :=
  match c with
  | Cat1 => {| n_pad := 256; k_pad := 128; nk_pad := 128 |}
  | Cat3 => {| n_pad := 448; k_pad := 224; nk_pad := 224 |}
  | Cat5 => {| n_pad := 576; k_pad := 288; nk_pad := 288 |}
  end.

Section O.
Variable X : prim.
Variable p : params.
Variable q : pads.
Variable i : isa.
Let N := pN p.
Let K := pK p.
Let NP := n_pad q.

(** codes.c:36 NW *)
Definition num_words : nat := ((N + 31) / 32)%nat.

(** Reading and writing the k-th vec256_t of a row. *)
Definition ldv (row : list Z) (k : nat) : res vec := rd row (32 * k) 32.
Definition stv (row : list Z) (k : nat) (v : vec) : res (list Z) := wr row (32 * k) v.
Definition ldm (m : mat) (r k : nat) : res vec := row <- get m r ;; ldv row k.
Definition stm (m : mat) (r k : nat) (v : vec) : res mat := row <- get m r ;; row' <- stv row k v ;; set m r row'.

(** codes.c:68-88: the body of the inner loop, from the two loaded vectors to the stored one *)
Definition mul_block (g mono : vec) : vec :=
  let g_lo := vextend8_16 (vget_lo g) in
  let g_hi := vextend8_16 (vget_hi g) in
  let mono_lo := vextend8_16 (vget_lo mono) in
  let mono_hi := vextend8_16 (vget_hi mono) in
  let g_lo := barrett_mul_u16 i g_lo mono_lo in
  let g_hi := barrett_mul_u16 i g_hi mono_hi in
  let g_lo := vshuffle8 i g_lo shuff_low_half in
  let g_hi := vshuffle8 i g_hi shuff_low_half in
  let g_lo := vpermute_4x64 g_lo 216 in
  let g_hi := vpermute_4x64 g_hi 216 in
  let s := vpermute2 i g_lo g_hi 32 in
  barrett_red8 s (vset8 127) (vset8 1).

(** codes.c:47-96; [buf0] is the uninitialised local buffer. N_pad is a multiple of 32. *)
Definition generator_monomial_mul_o (buf0 : list Z) (r G : mat) (Q : monomial) : res mat :=
  ' (r', _) <- for_ K 0 (fun row s =>
    let '(r, buf) := s in
    buf' <- for_ (NP / 32) 0 (fun b buf =>
      g <- ldm G row b ;;
      mono <- ldv (m_coef Q) b ;;
      stv buf b (mul_block g mono)) buf ;;
    r' <- for_ N 0 (fun c r =>
      d <- get (m_perm Q) c ;;
      x <- get buf' c ;;
      set2 r row (Z.to_nat d) x) r ;;
    Ok (r', buf')) (r, buf0) ;;
  Ok r'.

(** codes.c:136-143: the inner while, [n] = K - j rows left *)
Fixpoint row_scan (n j : nat) (G : mat) (pivc : nat) : res (option nat) :=
  match n with
  | O => Ok None
  | S n' => sc <- get2 G j pivc ;; if sc =? 0 then row_scan n' (S j) G pivc else Ok (Some j)
  end.

(** codes.c:135-146: the outer while, [n] = N - pivc columns left; [r] is the row variable i of the code *)
Fixpoint col_scan (n r pivc : nat) (G : mat) : res (option (nat * nat)) :=
  match n with
  | O => Ok None
  | S n' =>
      f <- row_scan (K - r) r G pivc ;;
      match f with
      | Some j => Ok (Some (j, pivc))
      | None => col_scan n' r (S pivc) G
      end
  end.

(** codes.c:158-162 *)
Definition swap_rows_v (G : mat) (r j : nat) : res mat :=
  for_ num_words 0 (fun k G =>
    t <- ldm G r k ;;
    b <- ldm G j k ;;
    G1 <- stm G r k b ;;
    stm G1 j k t) G.

(** codes.c:175-176, 204-205: vadd8 followed by W_RED127_ *)
Definition add_red (a b : vec) : vec := W_RED127_ (vadd8 a b) (vset8 1) (vset8 127).

(** codes.c:170-179: the multiples of the row [rg] *)
Definition fill_em (em : mat) (rg : list Z) : res mat :=
  d <- rd rg 0 (32 * num_words) ;;
  e1 <- get em 1 ;;
  e1' <- wr e1 0 d ;;
  em1 <- set em 1 e1' ;;
  for_ 125 2 (fun j em =>
    for_ num_words 0 (fun k em =>
      a <- ldm em (j - 1) k ;;
      b <- ldv rg k ;;
      stm em j k (add_red a b)) em) em1.

(** codes.c:182-190: ep[k] is a pointer into em, given by the index of the row, or indeterminate ([None]) *)
Definition fill_ep (ep : list (option nat)) (sc : Z) : res (list (option nat)) :=
  ep1 <- set ep 0 (Some 0%nat) ;;
  ' (ep2, _) <- for_ 126 1 (fun j s =>
      let '(ep, tmp) := s in
      ep' <- set ep (Z.to_nat tmp) (Some j) ;;
      let tmp := u8 (tmp + sc) in
      Ok (ep', Z.land (tmp + Z.shiftr tmp 7) 127)) (ep1, sc) ;;
  set ep2 127 (Some 0%nat).

(** The row of em pointed to by ep[k]; using an indeterminate pointer is undefined *)
Definition deref (em : mat) (ep : list (option nat)) (k : nat) : res (list Z) :=
  o <- get ep k ;;
  match o with Some j => get em j | None => UB end.

(** codes.c:197-209; [r] is the pivot row *)
Definition eliminate_v (G : mat) (em : mat) (ep : list (option nat)) (r pivc : nat) : res mat :=
  for_ K 0 (fun j G =>
    sc <- get2 G j pivc ;;
    if negb (sc =? 0) && negb (Nat.eqb j r) then
      if 127 <? sc then UB
      else
        rp <- deref em ep (Z.to_nat (127 - sc)) ;;
        for_ num_words 0 (fun k G =>
          x <- ldm G j k ;;
          y <- ldv rp k ;;
          stm G j k (add_red x y)) G
    else Ok G) G.

(** codes.c:130-210: the outer loop, [n] rows remaining *)
Fixpoint rref_rows_v (n r : nat) (G : mat) (piv : list Z) (em : mat) (ep : list (option nat)) : res (Z * mat * list Z) :=
  match n with
  | O => Ok (1, G, piv)
  | S n' =>
      f <- col_scan (N - r) r r G ;;
      match f with
      | None => Ok (0, G, piv)
      | Some (j, pivc) =>
          piv' <- set piv pivc 1 ;;
          G1 <- (if Nat.eqb r j then Ok G else swap_rows_v G r j) ;;
          rg <- get G1 r ;;
          em' <- fill_em em rg ;;
          sc <- get rg pivc ;;
          ep' <- fill_ep ep sc ;;
          nrm <- deref em' ep' 1 ;;
          d <- rd nrm 0 (32 * num_words) ;;
          rg' <- wr rg 0 d ;;
          G2 <- set G1 r rg' ;;
          G3 <- eliminate_v G2 em' ep' r pivc ;;
          rref_rows_v n' (S r) G3 piv' em' ep'
      end
  end.

(** codes.c:113-213; [em0] is the uninitialised local em, of 128 rows of NW vectors *)
Definition generator_RREF_o (em0 : mat) (G : mat) (piv : list Z) : res (Z * mat * list Z) :=
  rref_rows_v K 0 G piv em0 (repeat None 128).

(** codes.c:218-241 *)
Definition lex_minimize_o (V : mat) (dst : nat) (G : mat) (col : nat) : res mat :=
  ' (_, fval, _) <- for_ K 0 (fun i s =>
      let '(fidx, fval, found) := s in
      g <- get2 G i col ;;
      let hit := b2z (negb (g =? 0) && negb found) in
      let miss := b2z ((g =? 0) || found) in
      let fidx' := pos_t p (Z.of_nat i * hit + fidx * miss) in
      let fval' := u8 (g * hit + fval * miss) in
      Ok (fidx', fval', found || negb (g =? 0))) (0, 0, false) ;;
  let inv_first := br_inv fval in
  for_ K 0 (fun i V =>
    g <- get2 G i col ;;
    set2 V i dst (br_red (br_mul g inv_first))) V.

(** codes.c:304-343; [buf0], [em0]: uninitialised locals of the functions called *)
Definition prepare_digest_input_o (buf0 : list Z) (em0 : mat) (V : mat) (Qbar : action) (G : mat) (Q : monomial)
  : res (mat * action) :=
  G1 <- generator_monomial_mul_o buf0 (repeat (repeat 0 NP) K) G Q ;;
  ' (_, Gd, piv) <- generator_RREF_o em0 G1 (repeat 0 NP) ;;
  ' (V1, Qbar1, _, _) <- for_ N 0 (fun col s =>
      let '(V, Qb, piv_idx, non_piv_idx) := s in
      ' (row_idx, val) <- extract_col p Q col ;;
      f <- get piv col ;;
      if f =? 0 then
        (V' <- lex_minimize_o V (Z.to_nat (pos_t p (non_piv_idx - Z.of_nat K))) Gd col ;;
         Ok (V', Qb, piv_idx, pos_t p (non_piv_idx + 1)))
      else
        (perm <- set (a_perm Qb) (Z.to_nat piv_idx) row_idx ;;
         coef <- set (a_coef Qb) (Z.to_nat piv_idx) (u8 val) ;;
         Ok (V, {| a_perm := perm; a_coef := coef |}, pos_t p (piv_idx + 1), non_piv_idx)))
    (V, Qbar, 0, pos_t p (Z.of_nat K)) ;;
  V2 <- lex_sort_cols p V1 ;;
  Ok (V2, Qbar1).

(** codes.c:347-371 *)
Definition apply_action_to_G_o (r G : mat) (Q : action) : res mat :=
  ' (r1, flags) <- for_ K 0 (fun dst s =>
      let '(r, fl) := s in
      src <- get (a_perm Q) dst ;;
      r' <- for_ K 0 (fun i r =>
          g <- get2 G i (Z.to_nat src) ;;
          c <- get (a_coef Q) dst ;;
          set2 r i dst (br_red (br_mul g c))) r ;;
      fl' <- set fl (Z.to_nat src) 1 ;;
      Ok (r', fl')) (r, repeat 0 NP) ;;
  ' (r2, _) <- for_ N 0 (fun src s =>
      let '(r, dst) := s in
      f <- get flags src ;;
      if f =? 0 then
        (r' <- for_ K 0 (fun i r => g <- get2 G i src ;; set2 r i dst g) r ;;
         Ok (r', S dst))
      else Ok (r, dst)) (r1, K) ;;
  Ok r2.

(** codes.c:477-560: as [expand_to_rref], is_pivot_column having N_pad entries *)
Definition expand_to_rref_o (full : mat) (buf : list Z) : res mat :=
  piv1 <- for_ (N / 8) 0 (fun cb piv =>
      c <- get buf cb ;; unpack_flags 8 0 (8 * cb) c piv) (repeat 0 NP) ;;
  ' (piv, idx) <- (if has_tail p
      then (c <- get buf (N / 8) ;;
            pv <- unpack_flags 4 0 (N - 4) c piv1 ;; Ok (pv, S (N / 8)))
      else Ok (piv1, N / 8)%nat) ;;
  ' (full', _, _) <- for_ K 0 (fun row s =>
      let '(fl, idx, st) := s in
      ' (fl', idx', st', _) <- for_ N 0 (fun col s =>
        let '(fl, idx, st, pidx) := s in
        f <- get piv col ;;
        if f =? 0 then
          (' (v, idx') <- dec7_step st buf idx ;;
           fl' <- set2 fl row col v ;;
           Ok (fl', idx', next_state 7 st, pidx))
        else
          (fl' <- set2 fl row col (b2z (Nat.eqb row pidx)) ;;
           Ok (fl', idx, st, S pidx))) (fl, idx, st, 0%nat) ;;
      Ok (fl', idx', st')) (full, idx, 0%nat) ;;
  Ok full'.

(** monomial.c:128-135, with the optimised inversion *)
Definition monomial_mat_inv_o (r A : monomial) : res monomial :=
  for_ N 0 (fun i r =>
    a <- get (m_perm A) i ;;
    perm <- set (m_perm r) (Z.to_nat a) (pos_t p (Z.of_nat i)) ;;
    c <- get (m_coef A) i ;;
    coef <- set (m_coef r) (Z.to_nat a) (br_inv c) ;;
    Ok {| m_coef := coef; m_perm := perm |}) r.

End O.
