(** Interface to the symmetric primitives used by LESS
    (Reference_Implementation/include/rng.h, include/sha3.h, lib/rng.c).

    - [x_init s] models initialize_csprng(&st, s, |s|) (rng.c:40-48);
    - [x_squeeze n st] models csprng_randombytes(x, n, &st) (rng.h), returning the
      bytes and the new state;
    - [h_init], [h_absorb], [h_final] model LESS_SHA3_INC_INIT/ABSORB/FINALIZE (sha3.h).

    [Fips202Inst.v] instantiates this record with the model of fips202.c. *)
From Verif Require Import Base.

Record prim := {
  xstate : Type;
  x_init : list Z -> xstate;
  x_squeeze : nat -> xstate -> list Z * xstate;
  hstate : Type;
  h_init : hstate;
  h_absorb : hstate -> list Z -> hstate;
  h_final : hstate -> list Z }.

(** What the theorems need to know about the primitives. [hl] is the digest length. *)
Record lawful (X : prim) (hl : nat) : Prop := {
  law_sq_len : forall n s, length (fst (x_squeeze X n s)) = n;
  law_sq_bytes : forall n s, bytes (fst (x_squeeze X n s));
  law_h_len : forall s, length (h_final X s) = hl;
  law_h_bytes : forall s, bytes (h_final X s);
  law_absorb : forall s a b, bytes a -> bytes b ->
      h_final X (h_absorb X (h_absorb X s a) b) = h_final X (h_absorb X s (a ++ b)) }.
