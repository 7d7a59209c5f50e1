(** Rejection samplers: Reference_Implementation/include/fq_arith.h:43-62 and 153-160,
    permutation shuffle: lib/monomial.c:36-58. *)
From Verif Require Import Base Params Prim.

Section Samplers.
Variable X : prim.

(** fq_arith.h:56-61: the inner for over the chunks of one 64-bit word.
    Returns whether the function returned, the count and the buffer. *)
Fixpoint rand_chunks (chunks : nat) (minv span req : Z) (num : nat)
         (word : Z) (count : nat) (buf : list Z) : res (bool * (nat * list Z)) :=
  match chunks with
  | O => Ok (false, (count, buf))
  | S c =>
      let v := u8 (Z.land word (2 ^ req - 1)) in
      ' (count', buf') <-
        (if v <=? span
         then (b <- set buf count (u8 (v + minv)) ;; Ok (S count, b))
         else Ok (count, buf)) ;;
      if (num <=? count')%nat then Ok (true, (count', buf'))
      else rand_chunks c minv span req num (Z.shiftr word req) count' buf'
  end.

(** fq_arith.h:54-62: do { ... } while(1). *)
Fixpoint rand_loop (fuel : nat) (minv span req : Z) (num : nat)
         (st : xstate X) (count : nat) (buf : list Z) : res (list Z * xstate X) :=
  match fuel with
  | O => NoFuel
  | S f =>
      let (bs, st') := x_squeeze X 8 st in
      ' (fin, (count', buf')) <-
        rand_chunks (Z.to_nat (64 / req)) minv span req num (le_val bs) count buf ;;
      if fin then Ok (buf', st') else rand_loop f minv span req num st' count' buf'
  end.

(** fq_arith.h:43-53 DEF_RAND_STATE: SPAN, REQ_BITS, EL_MASK *)
Definition def_rand (minv maxv : Z) (fuel num : nat) (st : xstate X) (buf : list Z) :=
  rand_loop fuel minv (maxv - minv) (bits_to_represent (maxv - minv)) num st 0 buf.

(** fq_arith.h:158 fq_star_rnd_state_elements; fq_arith.h:153 fq_star_rnd_elements is the
    same code run on the global state. *)
Definition fq_star_rnd_state_elements := def_rand 1 126.
(** fq_arith.h:160 rand_range_q_state_elements; fq_arith.h:155 likewise. *)
Definition rand_range_q_state_elements := def_rand 0 126.

(** The uint32_t words stored in a byte buffer (little-endian host). *)
Definition words32 (n : nat) (bs : list Z) : list Z :=
  map (fun i => le_val (firstn 4 (skipn (4 * i) bs))) (seq 0 n).

(** lib/monomial.c:36-52 yt_shuffle_state *)
Definition yt_shuffle_state (p : params) (st : xstate X) (perm : list Z)
  : res (list Z * xstate X) :=
  let (bs, st') := x_squeeze X (4 * pN p) st in
  rand_u32 <- for_ (pN p - 1) 0 (fun i r =>
      x <- get r i ;;
      set r i (u32 (Z.of_nat i + x mod (Z.of_nat (pN p) - Z.of_nat i)))) (words32 (pN p) bs) ;;
  perm' <- for_ (pN p - 1) 0 (fun i pm =>
      tmp <- get pm i ;;
      r <- get rand_u32 i ;;
      y <- get pm (Z.to_nat r) ;;
      pm1 <- set pm i y ;;
      set pm1 (Z.to_nat r) tmp) perm ;;
  Ok (perm', st').

End Samplers.
