(** Arithmetic modulo Q = 127: Reference_Implementation/include/fq_arith.h *)
From Verif Require Import Base.

(** fq_arith.h:124-128. The parameter is a uint16_t, the result a uint8_t; the sum is an int. *)
Definition fq_red (x : Z) : Z := u8 ((127 + u16 x) mod 127).

(** fq_arith.h:141-147, the while(exp) loop; the uint32_t exponent is given in binary,
    one bit per iteration ([xI]/[xO]: exp&1 is 1/0; [xH]: last iteration).
    The products are of two uint16_t promoted to int: no overflow since both are below 256. *)
Fixpoint fq_pow_loop (e : positive) (accum xlift : Z) : Z :=
  match e with
  | xH => fq_red (accum * xlift)
  | xO e' => fq_pow_loop e' accum (fq_red (xlift * xlift))
  | xI e' => fq_pow_loop e' (fq_red (accum * xlift)) (fq_red (xlift * xlift))
  end.

(** fq_arith.h:132-149: exponent Q-2 = 125. *)
Definition fq_inv (x : Z) : Z := fq_red (fq_pow_loop 125 1 (u8 x)).
