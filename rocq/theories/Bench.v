(** The speed and memory benchmarks: Utilities/Benchmarking/lib/less_benchmark.c, Utilities/MemoryBenchmarking/lib/less_keygen.c,
    less_sign.c, less_verify.c, less_benchmark.c, and the statistics of include/timing_and_stat.h (the same file in both
    directories).

    Simplifications: long double numbers are rational numbers, so that rounding is left out; the square root taken when
    printing is left out (the number under the root is kept); the texts printed around the numbers are left out, except
    the verdict of less_benchmark.c. *)
From Coq Require Import String QArith.
From Verif Require Import Base Params Prim Codes Less TestProg.
Local Open Scope list_scope.
Local Open Scope Z_scope.

(** timing_and_stat.h:31-35 welford_t *)
Record welford := { w_mean : Q; w_M2 : Q; w_count : Z }.

(** timing_and_stat.h:37-43 *)
Definition welford_init : welford := {| w_mean := 0; w_M2 := 0; w_count := 0 |}.

(** timing_and_stat.h:45-53; the count is a long, which cannot overflow in a run of practical length *)
Definition welford_update (s : welford) (sample : Q) : welford :=
  let count := w_count s + 1 in
  let delta := (sample - w_mean s)%Q in
  let mean := (w_mean s + delta / inject_Z count)%Q in
  let delta2 := (sample - mean)%Q in
  {| w_mean := mean; w_M2 := (w_M2 s + delta * delta2)%Q; w_count := count |}.

(** timing_and_stat.h:68-83: welford_print, welford_stddev, welford_mean print or return the mean and the root of this *)
Definition welford_var (s : welford) : Q := (w_M2 s / inject_Z (w_count s - 1))%Q.

(** timing_and_stat.h:55-66: numerator, and square of the denominator *)
Definition welch_t_statistic (s1 s2 : welford) : Q * Q :=
  ((w_mean s1 - w_mean s2)%Q,
   (welford_var s1 / inject_Z (w_count s1) + welford_var s2 / inject_Z (w_count s2))%Q).

(** the loops of the benchmarks around [n] calls: the counter x86_64_rtdsc (timing_and_stat.h:11-29) is read before and after
    a call, as number 2i and 2i+1 of its readings; the difference is a uint64_t *)
Fixpoint timed (n i : nat) (clock : nat -> Z) (s : welford) : welford :=
  match n with
  | O => s
  | S k => timed k (S i) clock (welford_update s (inject_Z (u64 (clock (2 * i + 1)%nat - clock (2 * i)%nat)) / 1000)%Q)
  end.

Section B.
Variable X : prim.
Variable p : params.
Variable fuel : nat.
Variable junk : nat -> nat -> Z.
(** [clock k] is the sequence of counter values read by loop [k] of the program *)
Variable clock : nat -> nat -> Z.

(** less_keygen.c:33-39 NUM_TESTS *)
Definition bench_tests : nat := match p_cat p with Cat1 => 24 | Cat3 => 12 | Cat5 => 6 end.

(** less_keygen.c:70-71: the seed "0123456789012345" *)
Definition bench_seed : list Z := [48; 49; 50; 51; 52; 53; 54; 55; 56; 57; 48; 49; 50; 51; 52; 53].

(** less_verify.c:55-65: [n] verifications of one signature, with all verdicts *)
Fixpoint verify_each (n : nat) (pk sig : list Z) : res (list Z) :=
  match n with
  | O => Ok []
  | S k => ok <- LESS_verify X p fuel junk pk test_message sig ;; oks <- verify_each k pk sig ;; Ok (ok :: oks)
  end.

(** MemoryBenchmarking/lib/less_keygen.c:68-73; the keys are global variables, initially zero *)
Definition mem_keygen_main : res welford :=
  ' _ <- keygen_times X p fuel junk bench_tests (repeat 0 (sizeof_sk p)) (repeat 0 (sizeof_pk p)) (x_init X bench_seed) ;;
  Ok (timed bench_tests 0 (clock 0) welford_init).

(** MemoryBenchmarking/lib/less_sign.c:66-73 *)
Definition mem_sign_main : res welford :=
  ' (sk, pk, st) <- LESS_keygen X p fuel junk (x_init X bench_seed) (repeat 0 (sizeof_sk p)) (repeat 0 (sizeof_pk p)) ;;
  ' _ <- sign_times X p fuel junk bench_tests sk (repeat 0 (sizeof_sign p)) st ;;
  Ok (timed bench_tests 0 (clock 0) welford_init).

(** MemoryBenchmarking/lib/less_verify.c:68-74: nothing is signed; the verdicts, which the program discards, are kept here *)
Definition mem_verify_main : res (list Z * welford) :=
  ' (sk, pk, st) <- LESS_keygen X p fuel junk (x_init X bench_seed) (repeat 0 (sizeof_sk p)) (repeat 0 (sizeof_pk p)) ;;
  oks <- verify_each bench_tests pk (repeat 0 (sizeof_sign p)) ;;
  Ok (oks, timed bench_tests 0 (clock 0) welford_init).

(** MemoryBenchmarking/lib/less_benchmark.c:55-99 *)
Definition mem_benchmark_main : res (list Z * (welford * welford * welford)) :=
  ' (sk, pk, st) <- keygen_times X p fuel junk bench_tests (repeat 0 (sizeof_sk p)) (repeat 0 (sizeof_pk p)) (x_init X bench_seed) ;;
  ' (sig, _) <- sign_times X p fuel junk bench_tests sk (repeat 0 (sizeof_sign p)) st ;;
  oks <- verify_each bench_tests pk sig ;;
  Ok (oks, (timed bench_tests 0 (clock 0) welford_init, timed bench_tests 0 (clock 1) welford_init, timed bench_tests 0 (clock 2) welford_init)).

(** Benchmarking/lib/less_benchmark.c:48-66, 77-119, 123-136; its functions differ from those of Reference_Implementation/lib/bench
    in NUM_TESTS only *)
Definition speed_benchmark_main : res (string * (welford * welford * welford * welford)) :=
  ' (_, st) <- microbench X p fuel junk bench_tests (x_init X bench_seed) ;;
  verdict <- LESS_sign_verify_speed X p fuel junk bench_tests st ;;
  Ok (verdict, (timed bench_tests 0 (clock 0) welford_init, timed bench_tests 0 (clock 1) welford_init,
                timed bench_tests 0 (clock 2) welford_init, timed bench_tests 0 (clock 3) welford_init)).
End B.
