(** The test and benchmark programs: Reference_Implementation/lib/test/less_test.c and
    Reference_Implementation/lib/bench/less_benchmark.c.

    Optimized_Implementation/common/lib/test/less_test.c is the same file except for one printf format;
    Utilities/Benchmarking/lib/less_test.c contains the same testers, with uninitialised keys in
    LESS_sign_verify_test (here: any content).

    A tester yields the messages it prints (each on its own line) and the new state of the generator.
    Matrices and monomials, which are printed only after a failure, are represented by their names;
    the texts of the messages leave out the numbers they contain. *)
From Coq Require Import String.
From Verif Require Import Base Params Fq Prim Samplers Monomial Codes Utils Less Sign.
Local Open Scope list_scope.

(** memcmp(a, b, n) == 0 on objects given by their elements. There is no padding in monomial_t (N is
    even) nor in generator_mat_t and monomial_action_IS_t. *)
Fixpoint same_list (a b : list Z) : bool :=
  match a, b with
  | [], [] => true
  | x :: a', y :: b' => (x =? y) && same_list a' b'
  | _, _ => false
  end.
Fixpoint same_mat (a b : mat) : bool :=
  match a, b with
  | [], [] => true
  | x :: a', y :: b' => same_list x y && same_mat a' b'
  | _, _ => false
  end.
Definition same_monomial (a b : monomial) : bool := same_list (m_coef a) (m_coef b) && same_list (m_perm a) (m_perm b).
Definition same_action (a b : action) : bool := same_list (a_perm a) (a_perm b) && same_list (a_coef a) (a_coef b).

(** less_test.c:33-53. The two arrays are filled first, then compared (uint32_t arithmetic). *)
Definition inverse_mod_tester : res (list string) :=
  ' (value, inverse) <- for_ 126 0 (fun i s =>
      let '(v, w) := s in
      v' <- set v i (Z.of_nat i + 1) ;;
      w' <- set w i (fq_inv (Z.of_nat i + 1)) ;;
      Ok (v', w')) (repeat 0 126, repeat 0 126) ;;
  ' (msgs, all_ok) <- for_ 126 0 (fun i s =>
      let '(msgs, all_ok) := s in
      v <- get value i ;;
      w <- get inverse i ;;
      if u32 (v * w) mod 127 =? 1 then Ok (msgs, all_ok) else Ok (msgs ++ ["product"%string], false)) ([], true) ;;
  Ok (if (all_ok : bool) then msgs ++ ["All inverses on F_q ok"%string] else msgs).

Section T.
Variable X : prim.
Variable p : params.
Variable fuel : nat.
Variable junk : nat -> nat -> Z.
Let N := pN p.
Let K := pK p.

(** A byte array that has not been initialised. *)
Definition junk_bytes (tag n : nat) : list Z := map u8 (junk_list junk tag n).

(** less_test.c:57-70 *)
Definition monomial_tester (st : xstate X) : res (list string * xstate X) :=
  idcheck <- monomial_mat_id p (junk_monomial p junk 100) ;;
  ' (mat1, st1) <- monomial_mat_rnd X p fuel (junk_monomial p junk 102) st ;;
  mat2 <- monomial_mat_inv p (junk_monomial p junk 104) mat1 ;;
  id <- monomial_mat_mul p (junk_monomial p junk 106) mat2 mat1 ;;
  Ok (if same_monomial id idcheck then ["Monomial arith test: ok"%string]
      else ["M1"; "M1^-1"; "M1^-1 * M1"]%string, st1).

(** less_test.c:79-82, 149-152, 183-186, 243-246, 332-335: draw until the rank is K *)
Fixpoint random_full_rank (tries : nat) (G : mat) (st : xstate X) : res (mat * list Z * xstate X) :=
  match tries with
  | O => NoFuel
  | S k =>
      ' (G1, st1) <- generator_rnd X p fuel G st ;;
      ' (ret, G2, piv) <- generator_RREF p G1 (repeat 0 N) ;;
      if ret =? 0 then random_full_rank k G2 st1 else Ok (G2, piv, st1)
  end.

(** less_test.c:107-111: the element is read before the index is compared with N *)
Fixpoint find_pivot (steps : nat) (G : mat) (row col : nat) : res nat :=
  match steps with
  | O => NoFuel
  | S k =>
      v <- get2 G row col ;;
      if (v =? 0) && (col <? N)%nat then find_pivot k G row (S col) else Ok col
  end.

(** less_test.c:105-124 *)
Definition rref_check (G : mat) (piv : list Z) : res (list string * bool) :=
  for_ K 0 (fun row s =>
    let '(msgs, good) := s in
    col <- find_pivot (N + 2) G row 0 ;;
    v <- get2 G row col ;;
    let '(msgs1, good1) := if negb (v =? 1) then (msgs ++ ["Pivot actually equal to"%string], false) else (msgs, good) in
    let '(msgs2, good2) := if (N <=? col)%nat then (msgs1 ++ ["Pivot missing"%string], false) else (msgs1, good1) in
    f <- get piv col ;;
    Ok (if negb (f =? 1) then (msgs2 ++ ["indicator array mismatch"%string], false) else (msgs2, good2))) ([], true).

(** less_test.c:87-141; [n] iterations remain (NUMBER_OF_GE_TESTS = 10000) *)
Fixpoint gausselim_loop (n : nat) (msgs : list string) (G GMul : mat) (st : xstate X) : res (list string * xstate X) :=
  match n with
  | O => Ok (msgs ++ ["GE test: ok"%string], st)
  | S k =>
      ' (mat1, st1) <- monomial_mat_rnd X p fuel (junk_monomial p junk 112) st ;;
      GM <- generator_monomial_mul p GMul G mat1 ;;
      ' (full_rank, GR, piv) <- generator_RREF p GM (repeat 0 N) ;;
      let msgs1 := if full_rank =? 0 then msgs ++ ["Singular Matrix"; "Pre-GE"; "Post-GE"]%string else msgs in
      ' (msgs2, rref_ok) <- rref_check GR piv ;;
      let bad := negb (full_rank =? 0) && negb rref_ok in
      let msgs3 := msgs1 ++ msgs2 ++ (if bad then ["RREF incorrect"; "Pre-RREF"; "Post-RREF"]%string else []) in
      if (full_rank =? 0) || bad then Ok (msgs3, st1) else gausselim_loop k msgs3 GM GR st1
  end.

(** less_test.c:74-142 *)
Definition gausselim_tester (tests : nat) (st : xstate X) : res (list string * xstate X) :=
  ' (G, _, st1) <- random_full_rank fuel (junk_mat junk 108 K N) st ;;
  gausselim_loop tests [] G (junk_mat junk 110 K N) st1.

(** less_test.c:145-165 *)
Definition gen_by_monom_tester (st : xstate X) : res (list string * xstate X) :=
  ' (G, _, st1) <- random_full_rank fuel (repeat (repeat 0 N) K) st ;;
  ' (mat1, st2) <- monomial_mat_rnd X p fuel (junk_monomial p junk 102) st1 ;;
  mat2 <- monomial_mat_inv p (junk_monomial p junk 104) mat1 ;;
  G2 <- generator_monomial_mul p (junk_mat junk 108 K N) G mat1 ;;
  Gcheck <- generator_monomial_mul p (junk_mat junk 110 K N) G2 mat2 ;;
  Ok (if same_mat Gcheck G then ["Generator-monomial multiplication: ok"%string] else ["G"; "G*Q"; "G*Q*Q^-1"]%string, st2).

(** less_test.c:173-232. The indicator array is cleared only before the first of the five reductions. *)
Definition rref_gen_by_monom_tester (st : xstate X) : res (list string * xstate X) :=
  ' (Q_a, st1) <- monomial_mat_rnd X p fuel (junk_monomial p junk 102) st ;;
  Q_a_inv <- monomial_mat_inv p (junk_monomial p junk 104) Q_a ;;
  ' (Q_b, st2) <- monomial_mat_rnd X p fuel (junk_monomial p junk 106) st1 ;;
  ' (G, piv, st3) <- random_full_rank fuel (junk_mat junk 108 K N) st2 ;;
  G2 <- generator_monomial_mul p (junk_mat junk 110 K N) G Q_a ;;
  ' (r2, G2', piv2) <- generator_RREF p G2 piv ;;
  G3 <- generator_monomial_mul p (junk_mat junk 112 K N) G Q_b ;;
  ' (r3, G3', piv3) <- generator_RREF p G3 piv2 ;;
  mu <- monomial_mat_mul p (junk_monomial p junk 114) Q_a_inv Q_b ;;
  Qcheck <- monomial_mat_mul p (junk_monomial p junk 116) Q_a mu ;;
  Gcheck <- generator_monomial_mul p (junk_mat junk 118 K N) G2' mu ;;
  ' (_, Gc1, piv4) <- generator_RREF p Gcheck piv3 ;;
  ' (rc, Gc2, _) <- generator_RREF p Gc1 piv4 ;;
  Ok ((if negb (r2 =? 1) then ["G2=G Q_a: singular"%string] else []) ++
      (if negb (r3 =? 1) then ["G3=G Q_b: singular"%string] else []) ++
      (if same_monomial Q_b Qcheck then [] else ["mu"; "Q_a"; "Qcheck"; "Q_b"; "Q_a mu != Q_b"]%string) ++
      (if negb (rc =? 1) then ["Gcheck=G2 mu: singular"%string] else []) ++
      (if same_mat Gc2 G3' then ["SF Generator-monomial multiplication: ok"%string]
       else ["SF Generator-monomial multiplication: not ok"; "G"; "G2"; "G3"; "Gcheck"; "Q_a"; "Q_a_inv"; "Q_b"; "mu"; "Qcheck"]%string), st3).

(** less_test.c:237-268 *)
Definition rref_gen_compress_tester (st : xstate X) : res (list string * xstate X) :=
  ' (G, piv, st1) <- random_full_rank fuel (repeat (repeat 0 N) K) st ;;
  SF_G <- generator_rref_compact p (junk_rref p junk 102) G piv ;;
  ' (G1, st2) <- generator_rnd X p fuel G st1 ;;
  G2 <- generator_rref_expand p G1 SF_G ;;
  Ok (if same_mat G G2 then ["Generator SF compression: ok"%string]
      else ["Generator SF compression: ko"; "Comp-decomp"; "G"; "RREF-G"; "Reference"; "Gcheck"]%string, st2).

(** less_test.c:273-320 *)
Definition mono_is_compress_tester (st : xstate X) : res (list string * xstate X) :=
  ' (mono_rnd, st1) <- monomial_mat_rnd X p fuel (junk_monomial p junk 102) st ;;
  Q_a <- for_ K 0 (fun i q =>
      c <- get (m_coef mono_rnd) i ;;
      coef <- set (a_coef q) i c ;;
      a <- get (m_perm mono_rnd) i ;;
      perm <- set (a_perm q) i a ;;
      Ok {| a_perm := perm; a_coef := coef |}) (junk_action p junk 104) ;;
  compressed <- compress_monom_action p (junk_bytes 106 (mono_bytes p)) Q_a ;;
  Qcheck <- expand_to_monom_action p (junk_action p junk 108) compressed ;;
  Ok (if same_action Qcheck Q_a then ["Monomial Action compression: ok"%string] else ["Monomial Action compression: ko"%string], st1).

(** less_test.c:326-356 *)
Definition rref_gen_byte_compress_tester (st : xstate X) : res (list string * xstate X) :=
  ' (G, piv, st1) <- random_full_rank fuel (repeat (repeat 0 N) K) st ;;
  packed <- compress_rref p (junk_bytes 102 (rref_bytes p)) G piv ;;
  ' (G1, st2) <- generator_rnd X p fuel G st1 ;;
  G2 <- expand_to_rref p G1 packed ;;
  Ok (if same_mat G G2 then ["Generator SF compression: ok"%string]
      else ["Generator SF byte compression: ko"; "Comp-decomp"; "G"; "Reference"; "Gcheck"]%string, st2).

(** less_test.c:376: char message[8] = "Signme!" *)
Definition test_message : list Z := [83; 105; 103; 110; 109; 101; 33; 0].

(** less_test.c:372-383; [sk], [pk]: the key objects, zero in this file *)
Definition LESS_sign_verify_test (sk pk : list Z) (st : xstate X) : res (Z * xstate X) :=
  ' (sk1, pk1, st1) <- LESS_keygen X p fuel junk st sk pk ;;
  ' (sig, _, st2) <- LESS_sign X p fuel junk st1 sk1 test_message (junk_bytes 102 (sizeof_sign p)) ;;
  ok <- LESS_verify X p fuel junk pk1 test_message sig ;;
  Ok (ok, st2).

(** How a function ends: it returns a value, or a failed ASSERT stops the program. *)
Inductive ending := Returns (code : Z) | Aborts.

(** less_test.c:397-425; iteration [i], [n] remain. [rands i] is the value of the i-th call of rand().
    The list is the numbers printed after "OK: ". sm, m, pk, sk are the buffers. *)
Fixpoint multiple_loop (n i : nat) (rands : nat -> Z) (m sm pk sk : list Z) (ret : Z) (st : xstate X)
  : res (ending * list nat * xstate X) :=
  match n with
  | O => Ok (Returns ret, [], st)
  | S k =>
      let msg_len := Z.to_nat (u32 (rands i mod 160)) in
      let (bs, st1) := x_squeeze X msg_len st in
      m1 <- wr m 0 bs ;;
      ' (ret1, pk1, sk1, st2) <- crypto_sign_keypair X p fuel junk st1 pk sk ;;
      if negb (ret1 =? 0) then Ok (Returns (-1), [], st2)
      else
        msg <- rd m1 0 msg_len ;;
        ' (ret2, sm1, smlen, st3) <- crypto_sign X p fuel junk st2 sm msg sk1 ;;
        if negb (ret2 =? 0) then Ok (Returns (-1), [], st3)
        else
          ' (ret3, m2, mlen1) <- crypto_sign_open X p fuel junk m1 sm1 smlen pk1 ;;
          if negb (ret3 =? 0) then Ok (Returns (-1), [], st3)
          else
            match mlen1 with
            | None => UB
            | Some l =>
                if l =? Z.of_nat msg_len then
                  ' (e, printed, st4) <- multiple_loop k (S i) rands m2 sm1 pk1 sk1 (Z.lor ret ret3) st3 ;;
                  Ok (e, i :: printed, st4)
                else Ok (Aborts, [], st3)
            end
  end.

(** less_test.c:385-426: NUMBER_OF_TESTS = 100, MLEN = 160; calloc is assumed to succeed. This is what
    main returns (less_test.c:475). *)
Definition LESS_sign_verify_test_multiple (rands : nat -> Z) (st : xstate X) : res (ending * list nat * xstate X) :=
  multiple_loop 100 0 rands (repeat 0 160) (repeat 0 (160 + sizeof_sign p)) (repeat 0 (sizeof_pk p)) (repeat 0 (sizeof_sk p)) 0 st.

(** less_test.c:430 *)
Definition kat_test_message : list Z :=
  [216; 28; 77; 141; 115; 79; 203; 251; 234; 222; 61; 63; 138; 3; 159; 170; 42; 44; 153; 87; 232; 53; 173; 85; 178; 46; 117; 191; 87; 187; 85; 106; 200].

(** less_test.c:429-468, without the printing. The seed is overwritten with 0 .. 47 (lines 433-435). *)
Definition LESS_sign_verify_test_KAT : res Z :=
  let st := x_init X (map Z.of_nat (seq 0 48)) in
  ' (ret1, pk, sk, st1) <- crypto_sign_keypair X p fuel junk st (repeat 0 (sizeof_pk p)) (repeat 0 (sizeof_sk p)) ;;
  if negb (ret1 =? 0) then Ok (-1)
  else
    ' (ret2, sm, smlen, _) <- crypto_sign X p fuel junk st1 (repeat 0 (33 + sizeof_sign p)) kat_test_message sk ;;
    if negb (ret2 =? 0) then Ok (-1)
    else
      ' (ret3, _, _) <- crypto_sign_open X p fuel junk (repeat 0 (33 + sizeof_sign p)) sm smlen pk ;;
      if negb (ret3 =? 0) then Ok (-1) else Ok 0.

(** Utilities/Benchmarking/lib/less_test.c:367-391: main, with one iteration; the 16 bytes of
    "012345678912345" include the final NUL. The result is the number of functional tests. *)
Definition testbench_main : res Z :=
  ' (ok, _) <- LESS_sign_verify_test (junk_bytes 104 (sizeof_sk p)) (junk_bytes 106 (sizeof_pk p))
      (x_init X [48; 49; 50; 51; 52; 53; 54; 55; 56; 57; 49; 50; 51; 52; 53; 0]) ;;
  Ok (0 + ok).

(** less_benchmark.c:128-146 without the timing: [n] reductions of one matrix; the indicator array is
    never initialised *)
Fixpoint microbench_loop (n : nat) (G : mat) (piv : list Z) : res mat :=
  match n with
  | O => Ok G
  | S k => ' (_, G', piv') <- generator_RREF p G piv ;; microbench_loop k G' piv'
  end.
Definition microbench (n : nat) (st : xstate X) : res (mat * xstate X) :=
  ' (G, st1) <- generator_rnd X p fuel (junk_mat junk 108 K N) st ;;
  G' <- microbench_loop n G (junk_bytes 102 N) ;;
  Ok (G', st1).

(** less_benchmark.c:158-200 without the timing: [n] key generations into the same objects, [n]
    signatures with the last key, [n] verifications of the last signature *)
Fixpoint keygen_times (n : nat) (sk pk : list Z) (st : xstate X) : res (list Z * list Z * xstate X) :=
  match n with
  | O => Ok (sk, pk, st)
  | S k => ' (sk1, pk1, st1) <- LESS_keygen X p fuel junk st sk pk ;; keygen_times k sk1 pk1 st1
  end.
Fixpoint sign_times (n : nat) (sk sig : list Z) (st : xstate X) : res (list Z * xstate X) :=
  match n with
  | O => Ok (sig, st)
  | S k => ' (sig1, _, st1) <- LESS_sign X p fuel junk st sk test_message sig ;; sign_times k sk sig1 st1
  end.
Fixpoint verify_times (n : nat) (pk sig : list Z) (ok : Z) : res Z :=
  match n with
  | O => Ok ok
  | S k => ok' <- LESS_verify X p fuel junk pk test_message sig ;; verify_times k pk sig ok'
  end.
Definition LESS_sign_verify_speed (n : nat) (st : xstate X) : res string :=
  ' (sk, pk, st1) <- keygen_times n (junk_bytes 104 (sizeof_sk p)) (junk_bytes 106 (sizeof_pk p)) st ;;
  ' (sig, _) <- sign_times n sk (junk_bytes 102 (sizeof_sign p)) st1 ;;
  ok <- verify_times n pk sig (junk 112 0%nat) ;;
  Ok (if ok =? 1 then "functional"%string else "not functional"%string).

(** less_benchmark.c:112-120, 204-217: NUM_TESTS = 256, 12 or 6; the seed is "0123456789012345" *)
Definition num_tests : nat := match p_cat p with Cat1 => 256 | Cat3 => 12 | Cat5 => 6 end.
Definition benchmark_main : res string :=
  ' (_, st) <- microbench num_tests (x_init X [48; 49; 50; 51; 52; 53; 54; 55; 56; 57; 48; 49; 50; 51; 52; 53]) ;;
  LESS_sign_verify_speed num_tests st.

End T.
