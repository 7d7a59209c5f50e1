(** Specifications for the test vector program: the generator CTR_DRBG of NIST SP 800-90A with AES-256 and no
    derivation function, the counter-mode seed expander, and the text format of the vectors. *)
From Coq Require Import String Ascii.
From Verif Require Import Base Params Prim LessSpec.

(** Big-endian numbers. *)
Fixpoint be_val (l : list Z) : Z := match l with [] => 0 | b :: r => b * 256 ^ Z.of_nat (length r) + be_val r end.
(** The low [n] bytes of [v]. *)
Definition be_bytes (n : nat) (v : Z) : list Z := map (fun i => v / 256 ^ Z.of_nat (n - 1 - i) mod 256) (seq 0 n).

Definition xor_bytes (a b : list Z) : list Z := map (fun x => Z.lxor (fst x) (snd x)) (combine a b).

Section S.
Variable aes : list Z -> list Z -> list Z.

(** SP 800-90A, 10.2.1. The state is the key and the counter V, a number modulo 2^128. *)
Definition ctr_blocks (key : list Z) (v : Z) (n : nat) : list Z :=
  concat (map (fun i => aes key (be_bytes 16 (v + 1 + Z.of_nat i))) (seq 0 n)).

Definition drbg_update (st : list Z * Z) (data : list Z) : list Z * Z :=
  let t := xor_bytes (ctr_blocks (fst st) (snd st) 3) data in (firstn 32 t, be_val (skipn 32 t)).

Definition drbg_instantiate (seed_material : list Z) : list Z * Z := drbg_update (repeat 0 32, 0) seed_material.

Definition drbg_generate (st : list Z * Z) (n : nat) : list Z * (list Z * Z) :=
  let b := ((n + 15) / 16)%nat in
  (firstn n (ctr_blocks (fst st) (snd st) b), drbg_update (fst st, snd st + Z.of_nat b) (repeat 0 48)).

(** The key stream of the seed expander for a seed, a diversifier of 8 bytes and a maximal length: byte [j]. *)
Definition expander_byte (seed diversifier : list Z) (maxlen : Z) (j : nat) : Z :=
  nth (j mod 16) (aes seed (diversifier ++ be_bytes 4 maxlen ++ be_bytes 4 (Z.of_nat (j / 16)))) 0.

End S.

(** *** Text *)
Definition text (s : string) : list Z := map (fun c => Z.of_N (N_of_ascii c)) (list_ascii_of_string s).

(** Two hexadecimal digits per byte. *)
Definition hexadecimal (a : list Z) : list Z :=
  flat_map (fun b => [nth (Z.to_nat (b / 16)) (text "0123456789ABCDEF") 0; nth (Z.to_nat (b mod 16)) (text "0123456789ABCDEF") 0]) a.

(** [c] is a hexadecimal digit of value [v], in upper or lower case. *)
Definition digit16 (c v : Z) : Prop := 0 <= v < 16 /\
  (c = nth (Z.to_nat v) (text "0123456789ABCDEF") 0 \/ c = nth (Z.to_nat v) (text "0123456789abcdef") 0).

(** The decimal representation of a number, without leading zeros. *)
Definition decimal (n : Z) (l : list Z) : Prop :=
  Forall (fun c => 48 <= c <= 57) l /\ l <> [] /\ (hd 0 l = 48 -> l = [48]) /\
  fold_left (fun v c => 10 * v + (c - 48)) l 0 = n.

(** [l] occurs in [t] starting at position [k]. *)
Definition occurs_at (l t : list Z) (k : nat) : Prop := firstn (length l) (skipn k t) = l.

(** *** Test vectors *)
Local Open Scope list_scope.

(** The seeds and messages of [n] vectors numbered from [i]: 48 bytes and 33 (i + 1) bytes from the generator. *)
Fixpoint test_inputs (aes : list Z -> list Z -> list Z) (st : list Z * Z) (i n : nat) : list (list Z * list Z) :=
  match n with
  | O => []
  | S n' =>
      let '(seed, st1) := drbg_generate aes st 48 in
      let '(msg, st2) := drbg_generate aes st1 (33 * (i + 1)) in
      (seed, msg) :: test_inputs aes st2 (S i) n'
  end.

(** The generator is instantiated with the bytes 0, 1, ..., 47; there are 100 vectors. *)
Definition kat_inputs (aes : list Z -> list Z -> list Z) : list (list Z * list Z) :=
  test_inputs aes (drbg_instantiate aes (map Z.of_nat (seq 0 48))) 0 100.

Definition line (s : string) (value : list Z) : list Z := text s ++ value ++ [10].

(** The text [t] of a request, and of a response. *)
Definition request_record (i : nat) (seed msg t : list Z) : Prop :=
  exists di dl, decimal (Z.of_nat i) di /\ decimal (Z.of_nat (length msg)) dl /\
    t = line "count = " di ++ line "seed = " (hexadecimal seed) ++ line "mlen = " dl ++ line "msg = " (hexadecimal msg) ++
        line "pk =" [] ++ line "sk =" [] ++ line "smlen =" [] ++ line "sm =" [] ++ [10].

Definition response_record (i : nat) (seed msg pk sk sm t : list Z) : Prop :=
  exists di dl ds, decimal (Z.of_nat i) di /\ decimal (Z.of_nat (length msg)) dl /\ decimal (Z.of_nat (length sm)) ds /\
    t = line "count = " di ++ line "seed = " (hexadecimal seed) ++ line "mlen = " dl ++ line "msg = " (hexadecimal msg) ++
        line "pk = " (hexadecimal pk) ++ line "sk = " (hexadecimal sk) ++ line "smlen = " ds ++ line "sm = " (hexadecimal sm) ++ [10].

(** The vector for a seed and a message: the scheme's random bytes are the stream of [seed]; the keys are
    generated first, then the message is signed into a cleared buffer, with [num] published seeds. *)
Definition test_vector (X : prim) (p : params) (seed msg pk sk sm : list Z) (num : nat) : Prop :=
  exists rng1 rng2 sig, generates X p (x_init X seed) sk pk rng1 /\
    signs X p rng1 sk msg (repeat 0 (sizeof_sign p)) sig num rng2 /\
    sm = msg ++ firstn (2 * hash_len p + pW p * mono_bytes p + num * seed_len p + 1) sig.
