(** Challenge expansion: Reference_Implementation/lib/utils.c *)
From Verif Require Import Base Params Prim.

Section U.
Variable X : prim.
Variable p : params.

(** utils.c:28-32: KEYPAIR_INDEX_MASK, POSITION_MASK (MAX_KEYPAIR_INDEX = NUM_KEYPAIRS-1) *)
Definition kp_bits : Z := bits_to_represent (Z.of_nat (p_nk p) - 1).
Definition pos_bits : Z := bits_to_represent (Z.of_nat (pT p) - 1).

(** utils.c:48-58: do { ... } while; returns value, pos and the state *)
Fixpoint draw_position (fuel : nat) (fws : list Z) (st : xstate X) : res (Z * Z * xstate X) :=
  match fuel with
  | O => NoFuel
  | S f =>
      let (bs, st') := x_squeeze X 2 st in
      let rnd := le_val bs in
      let value := u8 (Z.land rnd (2 ^ kp_bits - 1)) in
      let pos := pos_t p (Z.shiftr rnd kp_bits) in
      let pos := pos_t p (Z.land pos (2 ^ pos_bits - 1)) in
      if (Z.of_nat (p_nk p) <=? value) || (Z.of_nat (pT p) <=? pos)
      then draw_position f fws st'
      else
        (x <- get fws (Z.to_nat pos) ;;
         if negb (x =? 0) then draw_position f fws st'
         else Ok (value, pos, st'))
  end.

(** utils.c:45-61: while (placed_elements < W) *)
Fixpoint place_elements (fuel dfuel : nat) (placed : nat) (fws : list Z) (st : xstate X)
  : res (list Z) :=
  match fuel with
  | O => NoFuel
  | S f =>
      if (placed <? pW p)%nat then
        ' (value, pos, st') <- draw_position dfuel fws st ;;
        fws' <- set fws (Z.to_nat pos) value ;;
        place_elements f dfuel (if value =? 0 then placed else S placed) fws' st'
      else Ok fws
  end.

(** utils.c:36-62 *)
Definition expand_digest_to_fixed_weight (fuel : nat) (fws digest : list Z) : res (list Z) :=
  place_elements fuel fuel 0 fws (x_init X digest).

End U.
