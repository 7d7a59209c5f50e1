(** The program of Session.v when each call may be served by the reference implementation or by the optimised one: two
    builds of the same library, or one process that replaces its library between two calls. The two implementations
    have the same rng.c, and sign.c differs in a cast (line 81 of the reference). *)
From Verif Require Import Base Params Prim Less Sign Vec OptCodes OptLess Session.

(** [None] is Reference_Implementation/lib, [Some (q, i)] is Optimized_Implementation/common/lib with the paddings [q], built for
    instruction set [i]. *)
Definition library := option (pads * isa).

Section M.
Variable X : prim.
Variable p : params.
Variable fuel : nat.
(** Uninitialised memory of the [n]-th call, and the library that serves it. *)
Variable junk : nat -> nat -> nat -> Z.
Variable lib : nat -> library.

(** sign.c:33-44 *)
Definition keypair_by (n : nat) (rng : xstate X) (pk sk : list Z) : res (Z * list Z * list Z * xstate X) :=
  match lib n with
  | None => crypto_sign_keypair X p fuel (junk n) rng pk sk
  | Some (q, i) => crypto_sign_keypair_o X p q i fuel (junk n) rng pk sk
  end.

(** sign.c:46-61 *)
Definition sign_by (n : nat) (rng : xstate X) (sm m sk : list Z) : res (Z * list Z * Z * xstate X) :=
  match lib n with
  | None => crypto_sign X p fuel (junk n) rng sm m sk
  | Some (q, i) => crypto_sign_o X p q i fuel (junk n) rng sm m sk
  end.

(** sign.c:68-92 *)
Definition open_by (n : nat) (m0 sm : list Z) (smlen : Z) (pk : list Z) : res (Z * list Z * option Z) :=
  match lib n with
  | None => crypto_sign_open X p fuel (junk n) m0 sm smlen pk
  | Some (q, i) => crypto_sign_open_o X p q i fuel (junk n) m0 sm smlen pk
  end.

(** As [api_call]. *)
Definition mixed_call (n : nat) (rng : xstate X) (keys : list (list Z * list Z)) (c : call)
  : res (answer * xstate X * list (list Z * list Z)) :=
  match c with
  | Keypair pk0 sk0 =>
      ' (ret, pk, sk, rng') <- keypair_by n rng pk0 sk0 ;;
      Ok (Keys ret pk sk, rng', keys ++ [(pk, sk)])
  | Sign k sm0 m =>
      ' (_, sk) <- get keys k ;;
      ' (ret, sm, smlen, rng') <- sign_by n rng sm0 m sk ;;
      Ok (Signed ret sm smlen, rng', keys)
  | Open k m0 sm smlen =>
      ' (pk, _) <- get keys k ;;
      ' (ret, m, mlen) <- open_by n m0 sm (Z.of_nat smlen) pk ;;
      Ok (Opened ret m mlen, rng, keys)
  end.

Fixpoint mixed_calls (n : nat) (rng : xstate X) (keys : list (list Z * list Z)) (cs : list call) : res (list answer) :=
  match cs with
  | [] => Ok []
  | c :: cs' =>
      ' (a, rng', keys') <- mixed_call n rng keys c ;;
      l <- mixed_calls (S n) rng' keys' cs' ;;
      Ok (a :: l)
  end.

(** rng.c:38-46, then the calls. *)
Definition mixed_session (seed : list Z) (cs : list call) : res (list answer) := mixed_calls 0 (x_init X seed) [] cs.
End M.
