(** A program that uses the API: it seeds the global generator once and then calls the three functions of sign.c in any
    order, on any buffers. A program whose later calls depend on earlier results makes, in each of its runs, the calls of
    one such list. *)
From Verif Require Import Base Params Prim Less Sign.

(** A call with its buffers. Key pairs are numbered in the order in which they were made. *)
Inductive call :=
| Keypair (pk0 sk0 : list Z)                   (* crypto_sign_keypair(pk0, sk0) *)
| Sign (k : nat) (sm0 m : list Z)              (* crypto_sign(sm0, &smlen, m, |m|, secret key k) *)
| Open (k : nat) (m0 sm : list Z) (smlen : nat). (* crypto_sign_open(m0, &mlen, sm, smlen, public key k) *)

(** The return value and the output buffers. *)
Inductive answer :=
| Keys (ret : Z) (pk sk : list Z)
| Signed (ret : Z) (sm : list Z) (smlen : Z)
| Opened (ret : Z) (m : list Z) (mlen : option Z).

Section S.
Variable X : prim.
Variable p : params.
Variable fuel : nat.
(** Uninitialised memory of the [n]-th call. *)
Variable junk : nat -> nat -> nat -> Z.

(** sign.c:33-94. The generator is platform_csprng_state (rng.c:36), which only randombytes (rng.h:44-53) uses. *)
Definition api_call (n : nat) (rng : xstate X) (keys : list (list Z * list Z)) (c : call)
  : res (answer * xstate X * list (list Z * list Z)) :=
  match c with
  | Keypair pk0 sk0 =>
      ' (ret, pk, sk, rng') <- crypto_sign_keypair X p fuel (junk n) rng pk0 sk0 ;;
      Ok (Keys ret pk sk, rng', keys ++ [(pk, sk)])
  | Sign k sm0 m =>
      ' (_, sk) <- get keys k ;;
      ' (ret, sm, smlen, rng') <- crypto_sign X p fuel (junk n) rng sm0 m sk ;;
      Ok (Signed ret sm smlen, rng', keys)
  | Open k m0 sm smlen =>
      ' (pk, _) <- get keys k ;;
      ' (ret, m, mlen) <- crypto_sign_open X p fuel (junk n) m0 sm (Z.of_nat smlen) pk ;;
      Ok (Opened ret m mlen, rng, keys)
  end.

Fixpoint api_calls (n : nat) (rng : xstate X) (keys : list (list Z * list Z)) (cs : list call) : res (list answer) :=
  match cs with
  | [] => Ok []
  | c :: cs' =>
      ' (a, rng', keys') <- api_call n rng keys c ;;
      l <- api_calls (S n) rng' keys' cs' ;;
      Ok (a :: l)
  end.

(** rng.c:38-46: initialize_csprng(&platform_csprng_state, seed, |seed|), then the calls. *)
Definition session (seed : list Z) (cs : list call) : res (list answer) := api_calls 0 (x_init X seed) [] cs.
End S.
