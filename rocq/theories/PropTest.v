(** C50: what the functional tests and the benchmark observe. *)
From Coq Require Import String.
From Verif Require Import Base BaseLemmas Params ParamsProofs Fq Prim Samplers Monomial Codes Utils Less Sign Spec LessSpec
  LinAlg SeedTreeProofs TreeFacts KatTextProofs PropApi PropSpec Toy TestProg TestProofs.
Local Open Scope list_scope.

(** Whatever the generator yields and whatever the uninitialised objects contain, a tester of less_test.c has no
    undefined behaviour and, if it ends, has printed exactly its line of success. *)
Definition prints_only {A} (m : res (list string * A)) (s : string) : Prop :=
  m <> UB /\ forall msgs st, m = Ok (msgs, st) -> msgs = [s].

Lemma prints_of_wp {A} (m : res (list string * A)) s : wp m (fun '(msgs, _) => msgs = [s]) -> prints_only m s.
Proof. intros H. destruct m as [[msgs st]| |]; cbn [wp] in H; split; try discriminate; try contradiction. intros msgs' st' E. congruence. Qed.

Theorem C50_inverses : inverse_mod_tester = Ok ["All inverses on F_q ok"%string].
Proof. exact inverse_mod_tester_ok. Qed.

Theorem C50_testers : forall X p, wf_params p -> lawful X (hash_len p) -> forall fuel junk st,
  prints_only (monomial_tester X p fuel junk st) "Monomial arith test: ok" /\
  (forall tests, prints_only (gausselim_tester X p fuel junk tests st) "GE test: ok") /\
  prints_only (gen_by_monom_tester X p fuel junk st) "Generator-monomial multiplication: ok" /\
  prints_only (rref_gen_by_monom_tester X p fuel junk st) "SF Generator-monomial multiplication: ok" /\
  prints_only (rref_gen_compress_tester X p fuel junk st) "Generator SF compression: ok" /\
  prints_only (mono_is_compress_tester X p fuel junk st) "Monomial Action compression: ok" /\
  prints_only (rref_gen_byte_compress_tester X p fuel junk st) "Generator SF compression: ok".
Proof.
  intros X p wf LX fuel junk st. split; [|split; [|split; [|split; [|split; [|split]]]]]; try intros tests; apply prints_of_wp.
  - apply monomial_tester_ok; auto.
  - apply gausselim_tester_ok; auto.
  - apply gen_by_monom_tester_ok; auto.
  - apply rref_gen_by_monom_tester_ok; auto.
  - apply rref_gen_compress_tester_ok; auto.
  - apply mono_is_compress_tester_ok; auto.
  - apply rref_gen_byte_compress_tester_ok; auto.
Qed.

(** The keygen-sign-verify test succeeds for every content of the key objects; so does the one of the benchmarking
    directory, and the benchmark always reports a functional scheme. *)
Theorem C50_functional : forall X p, wf_params p -> lawful X (hash_len p) -> forall fuel junk,
  (forall sk pk st, length sk = sizeof_sk p -> length pk = sizeof_pk p -> bytes pk ->
     LESS_sign_verify_test X p fuel junk sk pk st <> UB /\
     forall ok st', LESS_sign_verify_test X p fuel junk sk pk st = Ok (ok, st') -> ok = 1) /\
  (testbench_main X p fuel junk <> UB /\ forall n, testbench_main X p fuel junk = Ok n -> n = 1) /\
  (forall n st, (0 < n)%nat -> LESS_sign_verify_speed X p fuel junk n st <> UB /\
     forall s, LESS_sign_verify_speed X p fuel junk n st = Ok s -> s = "functional"%string) /\
  (benchmark_main X p fuel junk <> UB /\ forall s, benchmark_main X p fuel junk = Ok s -> s = "functional"%string).
Proof.
  intros X p wf LX fuel junk.
  assert (A : forall sk pk st, length sk = sizeof_sk p -> length pk = sizeof_pk p -> bytes pk ->
     LESS_sign_verify_test X p fuel junk sk pk st <> UB /\
     forall ok st', LESS_sign_verify_test X p fuel junk sk pk st = Ok (ok, st') -> ok = 1).
  { intros sk pk st H1 H2 H3. pose proof (sign_verify_test_ok X p wf LX fuel junk sk pk st H1 H2 H3) as S.
    destruct (LESS_sign_verify_test X p fuel junk sk pk st) as [[ok st']| |]; cbn [wp] in S; split; try discriminate; try contradiction.
    intros ok' st'' E. congruence. }
  assert (B : forall n st, (0 < n)%nat -> LESS_sign_verify_speed X p fuel junk n st <> UB /\
     forall s, LESS_sign_verify_speed X p fuel junk n st = Ok s -> s = "functional"%string).
  { intros n st Hn. pose proof (speed_ok X p wf LX fuel junk n st Hn) as S.
    destruct (LESS_sign_verify_speed X p fuel junk n st) as [s| |]; cbn [wp] in S; split; try discriminate; try contradiction. intros s' E. congruence. }
  split; auto. split.
  { unfold testbench_main. set (st := x_init X _).
    destruct (A (junk_bytes junk 104 (sizeof_sk p)) (junk_bytes junk 106 (sizeof_pk p)) st (junk_bytes_length _ _ _) (junk_bytes_length _ _ _) (junk_bytes_bytes _ _ _)) as (A1 & A2).
    destruct (LESS_sign_verify_test X p fuel junk _ _ st) as [[ok st']| |]; cbn [bind]; split; try discriminate; try contradiction.
    intros n E. injection E as <-. rewrite (A2 ok st' eq_refl). reflexivity. }
  split; auto. unfold benchmark_main. set (st := x_init X _). pose proof (microbench_ok X p wf LX fuel junk (num_tests p) st) as M.
  destruct (microbench X p fuel junk (num_tests p) st) as [[G st1]| |]; cbn [bind wp] in *; try (split; [discriminate|discriminate]); try contradiction.
  apply B. unfold num_tests. destruct (p_cat p); lia.
Qed.

(** The reductions that are timed: however often the matrix is reduced in place, with whatever the indicator array
    contains, it stays row equivalent to the matrix drawn, and it is in reduced row echelon form after the first
    reduction if that matrix has full rank. *)
Theorem C50_microbench : forall X p, wf_params p -> lawful X (hash_len p) -> forall fuel junk n st,
  microbench X p fuel junk n st <> UB /\ forall G st1, microbench X p fuel junk n st = Ok (G, st1) ->
  exists G0, generator_rnd X p fuel (junk_mat junk 108 (pK p) (pN p)) st = Ok (G0, st1) /\ shape (pK p) (pN p) G /\ reduced (pK p) (pN p) (ent G) /\
    row_equiv (pK p) (pN p) (ent G0) (ent G) /\ ((0 < n)%nat -> full_rank (pK p) (pN p) (ent G0) -> exists pv, is_rref (pK p) (pN p) (ent G) pv).
Proof.
  intros X p wf LX fuel junk n st. pose proof (microbench_ok X p wf LX fuel junk n st) as M.
  destruct (microbench X p fuel junk n st) as [[G st1]| |]; cbn [wp] in M; split; try discriminate; try contradiction.
  intros G' st' E. injection E as <- <-. exact M.
Qed.

(** The program of less_test.c. [test_trace rands i st nums st'] (TestProofs) is a sequence of iterations as the scheme
    prescribes them: a message of [rands i mod 160] random bytes, a key pair, a signature that publishes the next number
    of [nums] of seeds. The program follows such a sequence. It ends with 0 after 100 iterations unless a signature
    publishes the largest number of seeds there is room for; at the first such one it ends with -1. No assertion fails. *)
Theorem C50_program : forall X p, wf_params p -> lawful X (hash_len p) -> forall fuel junk rands st, (forall i, 0 <= rands i) ->
  LESS_sign_verify_test_multiple X p fuel junk rands st <> UB /\
  forall e printed st', LESS_sign_verify_test_multiple X p fuel junk rands st = Ok (e, printed, st') ->
  exists nums, test_trace X p rands 0 st nums st' /\
    ((e = Returns 0 /\ length nums = 100%nat /\ printed = seq 0 100 /\ Forall (fun k => Z.of_nat k < max_seeds p) nums) \/
     (e = Returns (-1) /\ exists good last, nums = good ++ [last] /\ (length good < 100)%nat /\ printed = seq 0 (length good) /\
        Forall (fun k => Z.of_nat k < max_seeds p) good /\ Z.of_nat last = max_seeds p)).
Proof.
  intros X p wf LX fuel junk rands st HR. unfold LESS_sign_verify_test_multiple.
  pose proof (multiple_loop_ok X p wf LX fuel junk rands HR 100 0 (repeat 0 160) (repeat 0 (160 + sizeof_sign p)) (repeat 0 (sizeof_pk p)) (repeat 0 (sizeof_sk p)) st
    (repeat_length _ _) (repeat_length _ _) (zeros_bytes _) (repeat_length _ _) (zeros_bytes _) (repeat_length _ _)) as S.
  destruct (multiple_loop X p fuel junk 100 0 rands (repeat 0 160) (repeat 0 (160 + sizeof_sign p)) (repeat 0 (sizeof_pk p)) (repeat 0 (sizeof_sk p)) 0 st) as [[[e printed] st']| |];
    cbn [wp] in S; split; try discriminate; try contradiction. intros e' printed' st'' E. injection E as <- <- <-. exact S.
Qed.

(** The commented-out test with the fixed seed. *)
Theorem C50_fixed : forall X p, wf_params p -> lawful X (hash_len p) -> forall fuel junk,
  LESS_sign_verify_test_KAT X p fuel junk <> UB /\
  forall code, LESS_sign_verify_test_KAT X p fuel junk = Ok code -> exists sk pk st1 old sig num st2,
    generates X p (x_init X (map Z.of_nat (seq 0 48))) sk pk st1 /\ length old = sizeof_sign p /\ bytes old /\
    signs X p st1 sk kat_test_message old sig num st2 /\ Z.of_nat num <= max_seeds p /\ code = if Z.of_nat num =? max_seeds p then -1 else 0.
Proof.
  intros X p wf LX fuel junk. pose proof (test_KAT_ok X p wf LX fuel junk) as S.
  destruct (LESS_sign_verify_test_KAT X p fuel junk) as [code| |]; cbn [wp] in S; split; try discriminate; try contradiction.
  intros code' E. injection E as <-. exact S.
Qed.

(** For five of the seven sets both always return 0. *)
Theorem C50_five_sets : forall p, In p [cat1_short_sig; cat3_balanced; cat3_short_sig; cat5_balanced; cat5_short_sig] ->
  forall X, lawful X (hash_len p) -> forall fuel junk,
  (forall rands st e printed st', (forall i, 0 <= rands i) ->
     LESS_sign_verify_test_multiple X p fuel junk rands st = Ok (e, printed, st') -> e = Returns 0 /\ printed = seq 0 100) /\
  (forall code, LESS_sign_verify_test_KAT X p fuel junk = Ok code -> code = 0).
Proof.
  intros p Hp X LX fuel junk. destruct (below_max p Hp) as [wf HM]. split.
  - intros rands st e printed st' HR E. destruct (C50_program X p wf LX fuel junk rands st HR) as (_ & V).
    destruct (V _ _ _ E) as (nums & T & [(H1 & _ & H2 & _)|(_ & good & last & -> & _ & _ & _ & HL)]); auto. exfalso.
    pose proof (trace_below X p wf LX rands _ _ _ _ HM T) as B. rewrite Forall_forall in B. specialize (B last). lapply B; [lia|]. apply in_app_iff. cbn. auto.
  - intros code E. destruct (C50_fixed X p wf LX fuel junk) as (_ & V). destruct (V _ E) as (sk & pk & st1 & old & sig & num & st2 & HG & H1 & H2 & HS & _ & ->).
    destruct (C39_keys X p wf LX _ _ _ _ HG) as (_ & SL & _).
    pose proof (signs_below X p wf LX st1 sk kat_test_message old sig num st2 HM SL H1 H2 ltac:(apply bytes_of_check; reflexivity) HS) as L.
    destruct (Z.eqb_spec (Z.of_nat num) (max_seeds p)); lia.
Qed.

(** Runs with the toy parameters. *)
Example C50_example_testers :
  (fst (okd ([], 0) (monomial_tester toyX toy_params 1000 toy_junk 5)), fst (okd ([], 0) (gausselim_tester toyX toy_params 1000 toy_junk 2 5)),
   fst (okd ([], 0) (mono_is_compress_tester toyX toy_params 1000 toy_junk 5))) =
  (["Monomial arith test: ok"%string], ["GE test: ok"%string], ["Monomial Action compression: ok"%string]).
Proof. vm_compute. reflexivity. Qed.

Definition toy_iterations (n : nat) (st : Z) : option (ending * list nat) :=
  match multiple_loop toyX toy_params 1000 toy_junk n 0 (fun i => Z.of_nat (i * 1000 + 7)) (repeat 0 160) (repeat 0 (160 + sizeof_sign toy_params))
    (repeat 0 (sizeof_pk toy_params)) (repeat 0 (sizeof_sk toy_params)) 0 st with
  | Ok (e, printed, _) => Some (e, printed)
  | _ => None
  end.
(** From state 3, the first signature publishes the largest number of seeds. *)
Example C50_example_program : toy_iterations 1 3 = Some (Returns (-1), []).
Proof. vm_compute. reflexivity. Qed.

Print Assumptions C50_inverses.
Print Assumptions C50_testers.
Print Assumptions C50_functional.
Print Assumptions C50_microbench.
Print Assumptions C50_program.
Print Assumptions C50_fixed.
Print Assumptions C50_five_sets.
