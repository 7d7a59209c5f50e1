(** Monomial matrices: Reference_Implementation/lib/monomial.c, include/monomial_mat.h *)
From Verif Require Import Base Params Fq Prim Samplers.

(** include/monomial_mat.h monomial_t: [m_perm[i]] is the column where column i lands,
    [m_coef[i]] the factor applied to it. *)
Record monomial := { m_coef : list Z; m_perm : list Z }.

(** include/monomial_mat.h monomial_action_IS_t: K entries. *)
Record action := { a_perm : list Z; a_coef : list Z }.

(** uint16_t round index as two little-endian bytes (monomial.c:74-76). *)
Definition round_bytes (i : nat) : list Z := le_bytes 2 (u16 (Z.of_nat i)).

Section M.
Variable X : prim.
Variable p : params.
Let N := pN p.
Let K := pK p.

(** Body shared by monomial.c:78-85 and monomial.c:94-100. *)
Definition monomial_expand (fuel : nat) (r : monomial) (input : list Z) : res monomial :=
  let st := x_init X input in
  ' (coefs, st1) <- fq_star_rnd_state_elements X fuel N st (m_coef r) ;;
  perm <- for_ N 0 (fun i pm => set pm i (pos_t p (Z.of_nat i))) (m_perm r) ;;
  ' (perm', _) <- yt_shuffle_state X p st1 perm ;;
  Ok {| m_coef := coefs; m_perm := perm' |}.

(** monomial.c:62-86: the XOF input is seed || salt || round_index *)
Definition monomial_mat_seed_expand_salt_rnd (fuel : nat) (r : monomial)
           (seed salt : list Z) (round : nat) : res monomial :=
  monomial_expand fuel r (seed ++ salt ++ round_bytes round).

(** monomial.c:90-101 *)
Definition monomial_mat_seed_expand_prikey (fuel : nat) (r : monomial) (seed : list Z)
  : res monomial :=
  monomial_expand fuel r seed.

(** monomial.c:105-112, from the global state *)
Definition monomial_mat_rnd (fuel : nat) (r : monomial) (st : xstate X) : res (monomial * xstate X) :=
  ' (coefs, st1) <- fq_star_rnd_state_elements X fuel N st (m_coef r) ;;
  perm <- for_ N 0 (fun i pm => set pm i (pos_t p (Z.of_nat i))) (m_perm r) ;;
  ' (perm', st2) <- yt_shuffle_state X p st1 perm ;;
  Ok ({| m_coef := coefs; m_perm := perm' |}, st2).

(** monomial.c:114-123 *)
Definition monomial_mat_mul (r A B : monomial) : res monomial :=
  for_ N 0 (fun i r =>
    a <- get (m_perm A) i ;;
    b <- get (m_perm B) (Z.to_nat a) ;;
    perm <- set (m_perm r) i b ;;
    ca <- get (m_coef A) i ;;
    cb <- get (m_coef B) (Z.to_nat a) ;;
    coef <- set (m_coef r) i (fq_red (ca * cb)) ;;
    Ok {| m_coef := coef; m_perm := perm |}) r.

(** monomial.c:125-132 *)
Definition monomial_mat_inv (r A : monomial) : res monomial :=
  for_ N 0 (fun i r =>
    a <- get (m_perm A) i ;;
    perm <- set (m_perm r) (Z.to_nat a) (pos_t p (Z.of_nat i)) ;;
    c <- get (m_coef A) i ;;
    coef <- set (m_coef r) (Z.to_nat a) (fq_inv c) ;;
    Ok {| m_coef := coef; m_perm := perm |}) r.

(** monomial.c:135-140 *)
Definition monomial_mat_id (r : monomial) : res monomial :=
  for_ N 0 (fun i r =>
    perm <- set (m_perm r) i (pos_t p (Z.of_nat i)) ;;
    coef <- set (m_coef r) i 1 ;;
    Ok {| m_coef := coef; m_perm := perm |}) r.

(** monomial.c:196-214; [rev0] is the uninitialised local reverse_Q *)
Definition monomial_compose_action (rev0 : monomial) (out : action) (Q : monomial) (inp : action)
  : res action :=
  rev <- for_ N 0 (fun i r =>
    a <- get (m_perm Q) i ;;
    perm <- set (m_perm r) (Z.to_nat a) (pos_t p (Z.of_nat i)) ;;
    c <- get (m_coef Q) i ;;
    coef <- set (m_coef r) (Z.to_nat a) c ;;
    Ok {| m_coef := coef; m_perm := perm |}) rev0 ;;
  for_ K 0 (fun i o =>
    a <- get (a_perm inp) i ;;
    b <- get (m_perm rev) (Z.to_nat a) ;;
    perm <- set (a_perm o) i b ;;
    c <- get (a_coef inp) i ;;
    d <- get (m_coef rev) (Z.to_nat a) ;;
    coef <- set (a_coef o) i (fq_red (c * d)) ;;
    Ok {| a_perm := perm; a_coef := coef |}) out.

(** *** Bit packing *)

(** [buf[idx] |= v << l; idx++; buf[idx] = v >> r] with truncation to bytes:
    the common shape of the cases of the switch statements. Returns the new index. *)
Definition enc_split (buf : list Z) (idx : nat) (v l r : Z) : res (list Z * nat) :=
  c <- get buf idx ;;
  b1 <- set buf idx (u8 (Z.lor c (Z.shiftl v l))) ;;
  b2 <- set b1 (S idx) (u8 (Z.shiftr v r)) ;;
  Ok (b2, S idx).

(** [((buf[idx] >> r) | (buf[idx+1] << l)) & mask] *)
Definition dec_split (buf : list Z) (idx : nat) (r l mask : Z) : res Z :=
  c <- get buf idx ;;
  d <- get buf (S idx) ;;
  Ok (Z.land (Z.lor (Z.shiftr c r) (Z.shiftl d l)) mask).

(** monomial.c:319-357 and codes.c:360-405: switch (encode_state) for 7-bit values *)
Definition enc7_step (st : nat) (buf : list Z) (idx : nat) (v : Z) : res (list Z * nat) :=
  match st with
  | 0%nat => b <- set buf idx (u8 v) ;; Ok (b, idx)
  | 1%nat => enc_split buf idx v 7 1
  | 2%nat => enc_split buf idx v 6 2
  | 3%nat => enc_split buf idx v 5 3
  | 4%nat => enc_split buf idx v 4 4
  | 5%nat => enc_split buf idx v 3 5
  | 6%nat => enc_split buf idx v 2 6
  | 7%nat => c <- get buf idx ;;
             b <- set buf idx (u8 (Z.lor c (Z.shiftl v 1))) ;; Ok (b, S idx)
  | _ => Ok (buf, idx)
  end.

(** monomial.c:457-489 and codes.c:451-502: switch (decode_state) for 7-bit values *)
Definition dec7_step (st : nat) (buf : list Z) (idx : nat) : res (Z * nat) :=
  match st with
  | 0%nat => c <- get buf idx ;; Ok (Z.land c mask_q, idx)
  | 1%nat => v <- dec_split buf idx 7 1 mask_q ;; Ok (v, S idx)
  | 2%nat => v <- dec_split buf idx 6 2 mask_q ;; Ok (v, S idx)
  | 3%nat => v <- dec_split buf idx 5 3 mask_q ;; Ok (v, S idx)
  | 4%nat => v <- dec_split buf idx 4 4 mask_q ;; Ok (v, S idx)
  | 5%nat => v <- dec_split buf idx 3 5 mask_q ;; Ok (v, S idx)
  | 6%nat => v <- dec_split buf idx 2 6 mask_q ;; Ok (v, S idx)
  | 7%nat => c <- get buf idx ;; Ok (Z.land (Z.shiftr c 1) mask_q, S idx)
  | _ => UB
  end.

(** monomial.c:359-363, 272-276 *)
Definition next_state (last st : nat) : nat := if Nat.eqb st last then 0%nat else S st.

(** monomial.c:228-270, category 3 *)
Definition enc9_step (st : nat) (buf : list Z) (idx : nat) (v : Z) : res (list Z * nat) :=
  match st with
  | 0%nat => b <- set buf idx (u8 v) ;;
             b2 <- set b (S idx) (u8 (Z.shiftr v 8)) ;; Ok (b2, S idx)
  | 1%nat => enc_split buf idx v 1 7
  | 2%nat => enc_split buf idx v 2 6
  | 3%nat => enc_split buf idx v 3 5
  | 4%nat => enc_split buf idx v 4 4
  | 5%nat => enc_split buf idx v 5 3
  | 6%nat => enc_split buf idx v 6 2
  | 7%nat => ' (b, i) <- enc_split buf idx v 7 1 ;; Ok (b, S i)
  | _ => Ok (buf, idx)
  end.

(** monomial.c:381-414, category 3 *)
Definition dec9_step (st : nat) (buf : list Z) (idx : nat) : res (Z * nat) :=
  match st with
  | 0%nat => v <- dec_split buf idx 0 8 (mask_n p) ;; Ok (v, S idx)
  | 1%nat => v <- dec_split buf idx 1 7 (mask_n p) ;; Ok (v, S idx)
  | 2%nat => v <- dec_split buf idx 2 6 (mask_n p) ;; Ok (v, S idx)
  | 3%nat => v <- dec_split buf idx 3 5 (mask_n p) ;; Ok (v, S idx)
  | 4%nat => v <- dec_split buf idx 4 4 (mask_n p) ;; Ok (v, S idx)
  | 5%nat => v <- dec_split buf idx 5 3 (mask_n p) ;; Ok (v, S idx)
  | 6%nat => v <- dec_split buf idx 6 2 (mask_n p) ;; Ok (v, S idx)
  | 7%nat => v <- dec_split buf idx 7 1 (mask_n p) ;; Ok (v, S (S idx))
  | _ => UB
  end.

(** monomial.c:278-300, category 5 *)
Definition enc10_step (st : nat) (buf : list Z) (idx : nat) (v : Z) : res (list Z * nat) :=
  match st with
  | 0%nat => b <- set buf idx (u8 v) ;;
             b2 <- set b (S idx) (u8 (Z.shiftr v 8)) ;; Ok (b2, S idx)
  | 1%nat => enc_split buf idx v 2 6
  | 2%nat => enc_split buf idx v 4 4
  | 3%nat => ' (b, i) <- enc_split buf idx v 6 2 ;; Ok (b, S i)
  | _ => Ok (buf, idx)
  end.

(** monomial.c:422-439, category 5 *)
Definition dec10_step (st : nat) (buf : list Z) (idx : nat) : res (Z * nat) :=
  match st with
  | 0%nat => v <- dec_split buf idx 0 8 (mask_n p) ;; Ok (v, S idx)
  | 1%nat => v <- dec_split buf idx 2 6 (mask_n p) ;; Ok (v, S idx)
  | 2%nat => v <- dec_split buf idx 4 4 (mask_n p) ;; Ok (v, S idx)
  | 3%nat => v <- dec_split buf idx 6 2 (mask_n p) ;; Ok (v, S (S idx))
  | _ => UB
  end.

(** Body of monomial.c:223-308 for the three categories; returns buffer, index and state *)
Definition enc_perm_step (st : nat) (buf : list Z) (idx : nat) (v : Z) : res (list Z * nat * nat) :=
  match p_cat p with
  | Cat1 => b <- set buf idx (u8 v) ;; Ok (b, S idx, st)
  | Cat3 => ' (b, i) <- enc9_step st buf idx v ;; Ok (b, i, next_state 7 st)
  | Cat5 => ' (b, i) <- enc10_step st buf idx v ;; Ok (b, i, next_state 3 st)
  end.

(** Body of monomial.c:376-447 *)
Definition dec_perm_step (st : nat) (buf : list Z) (idx : nat) : res (Z * nat * nat) :=
  match p_cat p with
  | Cat1 => c <- get buf idx ;; Ok (c, S idx, st)
  | Cat3 => ' (v, i) <- dec9_step st buf idx ;; Ok (v, i, next_state 7 st)
  | Cat5 => ' (v, i) <- dec10_step st buf idx ;; Ok (v, i, next_state 3 st)
  end.

(** monomial.c:310-314 and 449-453 *)
Definition coef_start_state : nat := match p_cat p with Cat5 => 4 | _ => 0 end.

(** monomial.c:217-365; [buf] is the destination array, of MONO_ACTION_PACKEDBYTES bytes *)
Definition compress_monom_action (buf : list Z) (mono : action) : res (list Z) :=
  ' (b1, idx1, _) <- for_ K 0 (fun i s =>
      let '(b, idx, st) := s in
      v <- get (a_perm mono) i ;;
      enc_perm_step st b idx v) (buf, 0%nat, 0%nat) ;;
  ' (b2, _, _) <- for_ K 0 (fun i s =>
      let '(b, idx, st) := s in
      v <- get (a_coef mono) i ;;
      ' (b', idx') <- enc7_step st b idx v ;;
      Ok (b', idx', next_state 7 st)) (b1, idx1, coef_start_state) ;;
  Ok b2.

(** monomial.c:370-498; [mono] is the previous content of the destination *)
Definition expand_to_monom_action (mono : action) (buf : list Z) : res action :=
  ' (perm, idx1, _) <- for_ K 0 (fun i s =>
      let '(pm, idx, st) := s in
      ' (v, idx', st') <- dec_perm_step st buf idx ;;
      pm' <- set pm i v ;;
      Ok (pm', idx', st')) (a_perm mono, 0%nat, 0%nat) ;;
  ' (coef, _, _) <- for_ K 0 (fun i s =>
      let '(cf, idx, st) := s in
      ' (v, idx') <- dec7_step st buf idx ;;
      cf' <- set cf i v ;;
      Ok (cf', idx', next_state 7 st)) (a_coef mono, idx1, coef_start_state) ;;
  Ok {| a_perm := perm; a_coef := coef |}.

(** monomial.c:501-505: first loop, with early return 0 *)
Fixpoint coefs_valid (n i : nat) (coef : list Z) : res bool :=
  match n with
  | O => Ok true
  | S n' =>
      c <- get coef i ;;
      if (c <=? 0) || (127 <=? c) then Ok false else coefs_valid n' (S i) coef
  end.

(** monomial.c:507-515: second loop, with early return 0 *)
Fixpoint perm_valid (n i : nat) (perm flags : list Z) : res bool :=
  match n with
  | O => Ok true
  | S n' =>
      v <- get perm i ;;
      if (v <? 0) || (Z.of_nat N <=? v) then Ok false
      else
        f <- get flags (Z.to_nat v) ;;
        if f =? 1 then Ok false
        else (flags' <- set flags (Z.to_nat v) 1 ;; perm_valid n' (S i) perm flags')
  end.

(** monomial.c:500-517 *)
Definition is_monom_action_valid (mono : action) : res Z :=
  ok1 <- coefs_valid K 0 (a_coef mono) ;;
  if ok1 then
    (ok2 <- perm_valid K 0 (a_perm mono) (repeat 0 N) ;; Ok (b2z ok2))
  else Ok 0.

End M.
