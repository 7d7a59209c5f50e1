(** The test vector program: /repo/Utilities/KAT_Generation/lib/PQCgenKAT_sign.c.
    A file is the list of its characters; a file opened for reading is the list of the characters
    not yet read. Opening, writing and closing files always succeed here. *)
From Coq Require Import String Ascii.
From Verif Require Import Base Params Prim Less Sign KatRng.

(** Characters of a C string. *)
Definition str (s : string) : list Z := map (fun c => Z.of_N (N_of_ascii c)) (list_ascii_of_string s).
Definition newline : Z := 10.

(** PQCgenKAT_sign.c:186-198. The window [line] holds as many characters as [marker]; none of the markers contains
    a NUL, so that [strncmp] compares all of them. *)
Fixpoint find_loop (marker line inp : list Z) : Z * list Z :=
  if list_eq_dec Z.eq_dec line marker then (1, inp)
  else match inp with
       | [] => (0, [])
       | c :: inp' => find_loop marker (tl line ++ [c]) inp'
       end.

(** PQCgenKAT_sign.c:167-202, with MAX_MARKER_LEN = 50. Returns the result and what is left of the file. *)
Definition FindMarker (inp marker : list Z) : Z * list Z :=
  let marker := firstn 49 marker in
  let len := length marker in
  if (length inp <? len)%nat then (0, [])
  else find_loop marker (firstn len inp) (skipn len inp).

Definition isxdigit (ch : Z) : bool :=
  ((48 <=? ch) && (ch <=? 57)) || ((65 <=? ch) && (ch <=? 70)) || ((97 <=? ch) && (ch <=? 102)).

(** PQCgenKAT_sign.c:234-241. *)
Definition hex_value (ch : Z) : Z :=
  if (48 <=? ch) && (ch <=? 57) then ch - 48
  else if (65 <=? ch) && (ch <=? 70) then ch - 65 + 10
  else if (97 <=? ch) && (ch <=? 102) then ch - 97 + 10
  else 0.

(** PQCgenKAT_sign.c:243-245: shift the array by four bits. *)
Definition shift_in (A : list Z) (Length : nat) (ich : Z) : res (list Z) :=
  A1 <- for_ (Length - 1) 0 (fun i A =>
      a <- get A i ;; b <- get A (i + 1) ;;
      set A i (u8 (Z.lor (Z.shiftl a 4) (Z.shiftr b 4)))) A ;;
  a <- get A1 (Length - 1) ;;
  set A1 (Length - 1) (u8 (Z.lor (Z.shiftl a 4) ich)).

(** PQCgenKAT_sign.c:219-246. *)
Fixpoint hex_loop (inp : list Z) (started : bool) (A : list Z) (Length : nat) : res (list Z * list Z) :=
  match inp with
  | [] => Ok (A, [])
  | ch :: inp' =>
      if negb (isxdigit ch) then
        if started then Ok (A, inp')
        else if ch =? newline then Ok (A, inp') else hex_loop inp' started A Length
      else
        A' <- shift_in A Length (hex_value ch) ;;
        hex_loop inp' true A' Length
  end.

(** PQCgenKAT_sign.c:207-250. Returns the result, the array and what is left of the file. *)
Definition ReadHex (inp A : list Z) (Length : nat) (s : list Z) : res (Z * list Z * list Z) :=
  if (Length =? 0)%nat then A' <- set A 0 0 ;; Ok (1, A', inp)
  else
    A0 <- wr A 0 (repeat 0 Length) ;;
    let '(found, inp1) := FindMarker inp s in
    if found =? 1 then
      ' (A1, inp2) <- hex_loop inp1 false A0 Length ;;
      Ok (1, A1, inp2)
    else Ok (0, A0, inp1).

(** "%02X" of an unsigned char. *)
Definition hex_digit (d : Z) : Z := if d <? 10 then 48 + d else 55 + d.
Definition print_hex2 (b : Z) : list Z := [hex_digit (b / 16); hex_digit (b mod 16)].

(** PQCgenKAT_sign.c:252-260: the characters appended to the file. *)
Definition fprintBstr (S A : list Z) (L : nat) : res (list Z) :=
  a <- rd A 0 L ;;
  Ok (S ++ concat (map print_hex2 a) ++ (if (L =? 0)%nat then str "00" else []) ++ [newline]).

(** "%d", "%llu" and "%ld" of a non-negative number of at most 20 digits. *)
Fixpoint print_dec_fuel (fuel : nat) (n : Z) : list Z :=
  match fuel with
  | O => []
  | S f => if n <? 10 then [48 + n] else print_dec_fuel f (n / 10) ++ [48 + n mod 10]
  end.
Definition print_dec (n : Z) : list Z := print_dec_fuel 20 n.

Definition is_space (ch : Z) : bool := ((9 <=? ch) && (ch <=? 13)) || (ch =? 32).
Definition is_digit (ch : Z) : bool := (48 <=? ch) && (ch <=? 57).
Fixpoint skip_space (inp : list Z) : list Z :=
  match inp with c :: r => if is_space c then skip_space r else inp | [] => [] end.
Fixpoint scan_digits (inp : list Z) (v : Z) : Z * list Z :=
  match inp with c :: r => if is_digit c then scan_digits r (10 * v + (c - 48)) else (v, inp) | [] => (v, []) end.

(** fscanf with "%d" or "%llu". Simplified: no sign and no overflow, which the numbers written by this program
    do not need. Returns the number of conversions (-1 at the end of the file), the value if there is one, and what is left. *)
Definition fscanf_number (inp : list Z) : Z * option Z * list Z :=
  match skip_space inp with
  | [] => (-1, None, [])
  | c :: r => if is_digit c then let '(v, r') := scan_digits (c :: r) 0 in (1, Some v, r') else (0, None, c :: r)
  end.

Definition KAT_SUCCESS : Z := 0.
Definition KAT_DATA_ERROR : Z := -3.
Definition KAT_CRYPTO_FAILURE : Z := -4.

Section K.
Variable aes : list Z -> list Z -> list Z.
Variable X : prim.
Variable p : params.
Variable fuel : nat.
Variable junk : nat -> nat -> Z.

(** Uninitialised character arrays. *)
Definition junk_bytes (site n : nat) : list Z := map (fun i => u8 (junk site i)) (seq 0 n).

(** PQCgenKAT_sign.c:55-67. The state is the file, the generator, [seed] and [msg]. *)
Definition request_loop (ctx0 : drbg_ctx) (seed0 msg0 : list Z) : res (list Z * drbg_ctx * list Z * list Z) :=
  for_ 100 0 (fun i st =>
    let '(req, ctx, seed, msg) := st in
    let req := req ++ str "count = " ++ print_dec (Z.of_nat i) ++ [newline] in
    ' (_, seed, ctx) <- KAT_NIST_randombytes aes (junk_bytes 101 16) (junk_bytes 102 48) ctx seed 48 ;;
    l1 <- fprintBstr (str "seed = ") seed 48 ;;
    let mlen := 33 * (Z.of_nat i + 1) in
    ' (_, msg, ctx) <- KAT_NIST_randombytes aes (junk_bytes 103 16) (junk_bytes 104 48) ctx msg mlen ;;
    l2 <- fprintBstr (str "msg = ") msg (Z.to_nat mlen) ;;
    Ok (req ++ l1 ++ str "mlen = " ++ print_dec mlen ++ [newline] ++ l2
          ++ str "pk =" ++ [newline] ++ str "sk =" ++ [newline] ++ str "smlen =" ++ [newline] ++ str "sm =" ++ [newline; newline],
        ctx, seed, msg)) ([], ctx0, seed0, msg0).

(** PQCgenKAT_sign.c:37-68: the request file and the content of [seed]. [ctx0] is the content of the global [DRBG_ctx]. *)
Definition kat_request (ctx0 : drbg_ctx) : res (list Z * list Z) :=
  let entropy := map Z.of_nat (seq 0 48) in
  ctx <- KAT_NIST_randombytes_init aes (junk_bytes 100 48) ctx0 entropy None ;;
  ' (req, _, seed, _) <- request_loop ctx (junk_bytes 105 48) (junk_bytes 106 (Z.to_nat 3300)) ;;
  Ok (req, seed).

(** What one iteration of the loop of lines 78-156 does: go on, leave the loop, or return a code. *)
Inductive step := Go (req rsp pk sk seed : list Z) (count mlen : Z) | Stop (rsp : list Z) | Return (code : Z) (rsp : list Z).

(** PQCgenKAT_sign.c:79-154. [count] and [mlen] keep their previous values when fscanf does not convert; the
    buffers of lines 110-112 are calloc'ed. [initialize_csprng] sets the generator used by the library. *)
Definition response_step (req rsp pk sk seed : list Z) (count mlen : Z) : res step :=
  let '(found, req) := FindMarker req (str "count = ") in
  if negb (found =? 1) then Ok (Stop rsp) else
  let '(ret, v, req) := fscanf_number req in
  if ret =? 0 then Ok (Return KAT_DATA_ERROR rsp) else
  let count := match v with Some c => c | None => count end in
  let rsp := rsp ++ str "count = " ++ print_dec count ++ [newline] in
  ' (ok, seed, req) <- ReadHex req seed 48 (str "seed = ") ;;
  if ok =? 0 then Ok (Return KAT_DATA_ERROR rsp) else
  l1 <- fprintBstr (str "seed = ") seed 48 ;;
  let rsp := rsp ++ l1 in
  s <- rd seed 0 48 ;;
  let rng := x_init X s in
  let '(found, req) := FindMarker req (str "mlen = ") in
  if negb (found =? 1) then Ok (Return KAT_DATA_ERROR rsp) else
  let '(ret, v, req) := fscanf_number req in
  if ret =? 0 then Ok (Return KAT_DATA_ERROR rsp) else
  let mlen := match v with Some l => l | None => mlen end in
  let rsp := rsp ++ str "mlen = " ++ print_dec mlen ++ [newline] in
  let m := repeat 0 (Z.to_nat mlen) in
  let m1 := repeat 0 (Z.to_nat mlen + sizeof_sign p) in
  let sm := repeat 0 (Z.to_nat mlen + sizeof_sign p) in
  ' (ok, m, req) <- ReadHex req m (Z.to_nat mlen) (str "msg = ") ;;
  if ok =? 0 then Ok (Return KAT_DATA_ERROR rsp) else
  l2 <- fprintBstr (str "msg = ") m (Z.to_nat mlen) ;;
  let rsp := rsp ++ l2 in
  ' (ret, pk, sk, rng) <- crypto_sign_keypair X p fuel junk rng pk sk ;;
  if negb (ret =? 0) then Ok (Return KAT_CRYPTO_FAILURE rsp) else
  l3 <- fprintBstr (str "pk = ") pk (sizeof_pk p) ;;
  l4 <- fprintBstr (str "sk = ") sk (sizeof_sk p) ;;
  let rsp := rsp ++ l3 ++ l4 in
  ' (ret, sm, smlen, rng) <- crypto_sign X p fuel junk rng sm m sk ;;
  if negb (ret =? 0) then Ok (Return KAT_CRYPTO_FAILURE rsp) else
  l5 <- fprintBstr (str "sm = ") sm (Z.to_nat smlen) ;;
  let rsp := rsp ++ str "smlen = " ++ print_dec smlen ++ [newline] ++ l5 ++ [newline] in
  ' (ret, m1, mlen1) <- crypto_sign_open X p fuel junk m1 sm smlen pk ;;
  if negb (ret =? 0) then Ok (Return KAT_CRYPTO_FAILURE rsp) else
  if negb (mlen =? match mlen1 with Some l => l | None => -1 end) then Ok (Return KAT_CRYPTO_FAILURE rsp) else
  a <- rd m 0 (Z.to_nat mlen) ;;
  b <- rd m1 0 (Z.to_nat mlen) ;;
  if list_eq_dec Z.eq_dec a b then Ok (Go req rsp pk sk seed count mlen) else Ok (Return KAT_CRYPTO_FAILURE rsp).

(** PQCgenKAT_sign.c:78-161. Each iteration reads at least the eight characters of a marker, so the length of the
    request file is enough fuel. Returns the exit code and the response file. *)
Fixpoint response_loop (n : nat) (req rsp pk sk seed : list Z) (count mlen : Z) : res (Z * list Z) :=
  match n with
  | O => NoFuel
  | S n' =>
      st <- response_step req rsp pk sk seed count mlen ;;
      match st with
      | Go req rsp pk sk seed count mlen => response_loop n' req rsp pk sk seed count mlen
      | Stop rsp => Ok (KAT_SUCCESS, rsp)
      | Return code rsp => Ok (code, rsp)
      end
  end.

(** PQCgenKAT_sign.c:24-162. Returns the exit code, the request file and the response file. *)
Definition kat_main (ctx0 : drbg_ctx) : res (Z * list Z * list Z) :=
  ' (req, seed) <- kat_request ctx0 ;;
  let rsp0 := str "# LESS" ++ [newline; newline] in
  ' (code, rsp) <- response_loop (S (length req)) req rsp0 (junk_bytes 107 (sizeof_pk p)) (junk_bytes 108 (sizeof_sk p))
      seed (junk 110 0%nat) (junk 110 1%nat) ;;
  Ok (code, req, rsp).

End K.
