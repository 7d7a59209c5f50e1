(** C52: what the speed and memory benchmarks compute. *)
From Coq Require Import String QArith Qfield Lqa.
From Verif Require Import Base BaseLemmas Params ParamsProofs Prim Codes Less Spec LessSpec BitCodec EnumProofs ApiProofs VerifyProofs KatTextProofs
  PropScheme PropSpec Toy TestProg TestProofs Bench.
Local Open Scope list_scope.
Local Open Scope Z_scope.

(** *** The statistics *)

Definition qsum (l : list Q) : Q := fold_right Qplus 0%Q l.
Definition average (l : list Q) : Q := (qsum l / inject_Z (Z.of_nat (length l)))%Q.
(** The sum of the squared distances to the average, divided by one less than the number of samples. *)
Definition variance (l : list Q) : Q :=
  (qsum (map (fun x => (x - average l) * (x - average l)) l) / inject_Z (Z.of_nat (length l) - 1))%Q.

Lemma qsum_app a b : (qsum (a ++ b) == qsum a + qsum b)%Q.
Proof. induction a as [|x a IH]; cbn [qsum app fold_right] in *. { unfold qsum. ring. } fold (qsum (a ++ b)) (qsum a). rewrite IH. ring. Qed.
Lemma qsum_dist l c : (qsum (map (fun x => (x - c) * (x - c)) l) ==
  qsum (map (fun x => x * x) l) - (2#1) * c * qsum l + inject_Z (Z.of_nat (length l)) * c * c)%Q.
Proof.
  induction l as [|x l IH]; cbn [map length]. { cbn. ring. }
  cbn [qsum fold_right]. fold (qsum (map (fun x => (x - c) * (x - c)) l)%Q) (qsum (map (fun x => x * x) l)%Q) (qsum l). rewrite IH.
  replace (Z.of_nat (S (length l))) with (Z.of_nat (length l) + 1) by lia. rewrite inject_Z_plus. ring.
Qed.

Lemma welford_inv l : let s := fold_left welford_update l welford_init in let n := inject_Z (Z.of_nat (length l)) in
  w_count s = Z.of_nat (length l) /\ (n * w_mean s == qsum l)%Q /\ (w_M2 s + n * w_mean s * w_mean s == qsum (map (fun x => x * x) l))%Q.
Proof.
  induction l as [|x l IH] using rev_ind. { cbn. repeat split; ring. }
  rewrite fold_left_app. cbn [fold_left]. destruct (fold_left welford_update l welford_init) as [m M c].
  cbn [welford_update w_count w_mean w_M2] in *. destruct IH as (IC & IM & I2). subst c.
  rewrite map_app, app_length, !qsum_app. cbn [map length qsum fold_right].
  replace (Z.of_nat (length l + 1)) with (Z.of_nat (length l) + 1) by lia. split; auto.
  assert (NZ : ~ (inject_Z (Z.of_nat (length l) + 1) == 0)%Q) by (unfold Qeq; cbn; lia).
  rewrite inject_Z_plus in *. set (n := inject_Z (Z.of_nat (length l))) in *. change (inject_Z 1) with 1%Q in *.
  rewrite <- IM, <- I2. split; field; auto.
Qed.

(** In exact arithmetic the mean and variance printed are those of the samples, and the statistic comparing two
    series is the difference of the averages over the root of the sum of variance / number. *)
Theorem C52_statistics : forall l, let s := fold_left welford_update l welford_init in
  w_count s = Z.of_nat (length l) /\
  ((1 <= length l)%nat -> (w_mean s == average l)%Q) /\
  ((2 <= length l)%nat -> (welford_var s == variance l)%Q /\
    forall l', (2 <= length l')%nat -> let (num, den2) := welch_t_statistic s (fold_left welford_update l' welford_init) in
      (num == average l - average l')%Q /\
      (den2 == variance l / inject_Z (Z.of_nat (length l)) + variance l' / inject_Z (Z.of_nat (length l')))%Q).
Proof.
  assert (A : forall l, let s := fold_left welford_update l welford_init in
    w_count s = Z.of_nat (length l) /\ ((1 <= length l)%nat -> (w_mean s == average l)%Q) /\ ((2 <= length l)%nat -> (welford_var s == variance l)%Q)).
  { intros l s. destruct (welford_inv l) as (IC & IM & I2). fold s in IC, IM, I2. split; auto.
    assert (ME : (1 <= length l)%nat -> (w_mean s == average l)%Q).
    { intros H. unfold average. rewrite <- IM. field. unfold Qeq. cbn. lia. }
    split; auto. intros H. specialize (ME ltac:(lia)). unfold welford_var, variance. rewrite IC.
    rewrite qsum_dist, <- I2, <- IM. rewrite <- ME. apply Qmult_comp; [|reflexivity]. ring. }
  intros l s. destruct (A l) as (A1 & A2 & A3). fold s in A1, A2, A3. split; auto. split; auto. intros H. split; auto.
  intros l' H'. destruct (A l') as (B1 & B2 & B3). unfold welch_t_statistic. rewrite A1, B1, A2, B2, A3, B3 by lia. split; reflexivity.
Qed.

(** Call number [i] of a loop lasts [ticks] if a counter of 64 bits advances by that many steps between its two readings. *)
Definition lasts (clock : nat -> Z) (i : nat) (ticks : Z) : Prop :=
  0 <= ticks < 2 ^ 64 /\ 0 <= clock (2 * i)%nat < 2 ^ 64 /\ clock (2 * i + 1)%nat = (clock (2 * i)%nat + ticks) mod 2 ^ 64.

(** A loop over [n] calls gathers the statistics of their lengths in thousands, even when the counter wraps around. *)
Theorem C52_timing : forall clock ticks, (forall i, (i < length ticks)%nat -> lasts clock i (nth i ticks 0)) ->
  timed (length ticks) 0 clock welford_init = fold_left welford_update (map (fun t => (inject_Z t / 1000)%Q) ticks) welford_init.
Proof.
  intros clock ticks H. generalize welford_init as s.
  assert (V : forall tk i s, (forall j, (j < length tk)%nat -> lasts clock (i + j) (nth j tk 0)) ->
    timed (length tk) i clock s = fold_left welford_update (map (fun t => (inject_Z t / 1000)%Q) tk) s).
  { clear. induction tk as [|t tk IH]; intros i s H; cbn [timed length map fold_left]; auto.
    pose proof (H 0%nat ltac:(cbn; lia)) as (T & C & E). rewrite Nat.add_0_r in *. cbn [nth] in *.
    replace (u64 (clock (2 * i + 1)%nat - clock (2 * i)%nat)) with t.
    - apply IH. intros j Hj. replace (S i + j)%nat with (i + S j)%nat by lia. apply (H (S j)). cbn. lia.
    - rewrite E. unfold u64. rewrite Zminus_mod, Zmod_mod, <- Zminus_mod. replace (clock (2 * i)%nat + t - clock (2 * i)%nat) with t by ring.
      symmetry. apply Z.mod_small. exact T. }
  intros s. apply V. intros j Hj. apply H. exact Hj.
Qed.

(** *** The programs *)

Lemma le_val_zeros n : le_val (repeat 0 n) = 0.
Proof. induction n as [|n IH]; cbn [repeat le_val]; auto. rewrite IH. reflexivity. Qed.
Lemma bytes_at_zeros n o k : exists m, bytes_at (repeat 0 n) o k = repeat 0 m.
Proof.
  assert (S : forall o n, exists m, skipn o (repeat 0 n) = repeat 0 m).
  { clear. induction o as [|o IH]; intros n. { exists n. reflexivity. } destruct n as [|n]. { exists 0%nat. reflexivity. } cbn [repeat skipn]. apply IH. }
  assert (F : forall o n, exists m, firstn o (repeat 0 n) = repeat 0 m).
  { clear. induction o as [|o IH]; intros n. { exists 0%nat. reflexivity. } destruct n as [|n]. { exists 0%nat. reflexivity. }
    cbn [repeat firstn]. destruct (IH n) as (m & ->). exists (S m). reflexivity. }
  unfold bytes_at. destruct (S o n) as (m & ->). apply F.
Qed.

(** The signature object of all zeros is not a signature of anything. *)
Theorem C52_zero_signature : forall X p, wf_params p -> forall pk m n, ~ valid X p pk m (repeat 0 n).
Proof.
  intros X p wf pk m n (chal & nodes & seeds & G0 & Vs & (cn & CE & CW & _) & _ & _ & _ & _ & _ & _ & HR & _).
  assert (W : (1 <= pW p)%nat) by (destruct wf; lia).
  assert (L : length chal = pT p).
  { rewrite CE. clear. generalize (repeat_length 0 (pT p)). generalize (repeat 0 (pT p)). generalize (draw_halfwords X cn (x_init X (bytes_at (repeat 0 n) (off_digest p) (hash_len p)))).
    intros l. induction l as [|w l IH]; intros c H; cbn [fold_left]; auto. apply IH. unfold place. cbv zeta.
    match goal with |- context [if ?b then _ else _] => destruct b end; auto. rewrite upd_length. auto. }
  assert (exists t, (t < pT p)%nat /\ nth t chal 0 <> 0) as (t & Ht & Hnz).
  { rewrite <- L. rewrite weight_cnt in CW. rewrite <- CW in W. clear - W.
    destruct (cnt_nth_enum (nz chal) (length chal) 0 0%nat) as (H1 & H2 & _); [lia|].
    exists (nth 0 (enum (nz chal) (length chal)) 0%nat). split; auto. intros E. unfold nz, nthZ in H2. setoid_rewrite E in H2. discriminate. }
  specialize (HR t Ht). unfold checks_round in HR. destruct (Z.eqb_spec (nth t chal 0) 0); [contradiction|].
  destruct HR as (G & piv & rp & rc & M & _ & _ & _ & (L1 & L2 & RA) & (_ & _ & _ & _ & HU) & _ & _).
  assert (HK : (0 < pK p)%nat) by (destruct wf; lia).
  destruct (RA 0%nat HK) as (_ & E). destruct (bytes_at_zeros n (off_monom p (weight (firstn t chal))) (mono_bytes p)) as (k & Z0).
  rewrite Z0, le_val_zeros in E. rewrite Z.div_0_l in E by (apply Z.pow_nonzero; [lia|destruct (p_cat p); lia]). cbn in E.
  rewrite Forall_forall in HU. specialize (HU (nth 0 rc 0) ltac:(apply nth_In; lia)). rewrite E in HU. unfold fq_unit in HU. lia.
Qed.

(** [w] holds the statistics, in thousands of ticks, of [n] calls measured with [clock]. *)
Definition statistics_of (n : nat) (clock : nat -> Z) (w : welford) : Prop :=
  forall ticks, length ticks = n -> (forall i, (i < n)%nat -> lasts clock i (nth i ticks 0)) ->
  let kticks := map (fun t => (inject_Z t / 1000)%Q) ticks in
  (w_mean w == average kticks)%Q /\ (welford_var w == variance kticks)%Q.

Lemma timed_statistics n clock : (2 <= n)%nat -> statistics_of n clock (timed n 0 clock welford_init).
Proof.
  intros Hn ticks <- H kticks. rewrite (C52_timing clock ticks H). fold kticks.
  assert (L : length kticks = length ticks) by apply map_length.
  destruct (C52_statistics kticks) as (_ & A & B). split; [apply A; lia|]. apply B. lia.
Qed.

Lemma verify_each_const X p fuel junk n pk sig r : (forall x, LESS_verify X p fuel junk pk test_message sig = Ok x -> x = r) ->
  LESS_verify X p fuel junk pk test_message sig <> UB -> wp (verify_each X p fuel junk n pk sig) (fun oks => oks = repeat r n).
Proof.
  intros H U. induction n as [|n IH]; cbn [verify_each repeat]. { reflexivity. }
  destruct (LESS_verify X p fuel junk pk test_message sig) as [x| |]; cbn [bind wp]; auto.
  rewrite (H x eq_refl). destruct (verify_each X p fuel junk n pk sig) as [oks| |]; cbn [bind wp] in *; auto. congruence.
Qed.

Lemma wp_out {A} (m : res A) (P : A -> Prop) : wp m P -> m <> UB /\ forall a, m = Ok a -> P a.
Proof. intros H. destruct m as [a| |]; cbn [wp] in H; split; try discriminate; try contradiction. intros b E. congruence. Qed.

(** No benchmark has undefined behaviour, and those that end print the statistics of the calls they measure. The speed
    benchmark reports a functional scheme, and all verifications of the combined memory benchmark accept. Those of the
    memory benchmark of verification all reject, whatever the hash function: it verifies an object that was never
    signed, and so does not measure the verification of signatures. *)
Theorem C52_programs : forall X p, wf_params p -> lawful X (hash_len p) -> forall fuel junk clock,
  let n := bench_tests p in
  (mem_keygen_main X p fuel junk clock <> UB /\ forall w, mem_keygen_main X p fuel junk clock = Ok w -> statistics_of n (clock 0%nat) w) /\
  (mem_sign_main X p fuel junk clock <> UB /\ forall w, mem_sign_main X p fuel junk clock = Ok w -> statistics_of n (clock 0%nat) w) /\
  (mem_verify_main X p fuel junk clock <> UB /\ forall oks w, mem_verify_main X p fuel junk clock = Ok (oks, w) ->
     statistics_of n (clock 0%nat) w /\ oks = repeat 0 n) /\
  (mem_benchmark_main X p fuel junk clock <> UB /\ forall oks w0 w1 w2, mem_benchmark_main X p fuel junk clock = Ok (oks, (w0, w1, w2)) ->
     statistics_of n (clock 0%nat) w0 /\ statistics_of n (clock 1%nat) w1 /\ statistics_of n (clock 2%nat) w2 /\ oks = repeat 1 n) /\
  (speed_benchmark_main X p fuel junk clock <> UB /\ forall verdict w0 w1 w2 w3,
     speed_benchmark_main X p fuel junk clock = Ok (verdict, (w0, w1, w2, w3)) ->
     statistics_of n (clock 0%nat) w0 /\ statistics_of n (clock 1%nat) w1 /\ statistics_of n (clock 2%nat) w2 /\ statistics_of n (clock 3%nat) w3 /\
     verdict = "functional"%string).
Proof.
  intros X p wf LX fuel junk clock n.
  assert (Hn : (2 <= n)%nat) by (unfold n, bench_tests; destruct (p_cat p); lia).
  assert (ST : forall c, statistics_of n c (timed n 0 c welford_init)) by (intros c; apply timed_statistics; auto).
  assert (LZ : forall k, length (repeat 0 k) = k) by (intros; apply repeat_length).
  split; [|split; [|split; [|split]]].
  - apply wp_out. unfold mem_keygen_main. fold n. eapply wp_bind. { apply keygen_times_ok; auto. apply zeros_bytes. } intros [[sk pk] st] _. cbn [wp]. auto.
  - apply wp_out. unfold mem_sign_main. fold n. eapply wp_bind. { apply keygen_run; auto. apply zeros_bytes. } intros [[sk pk] st] (_ & _ & L & _).
    eapply wp_bind. { apply sign_times_ok; auto. apply zeros_bytes. } intros [sig st'] _. cbn [wp]. auto.
  - assert (V : wp (mem_verify_main X p fuel junk clock) (fun '(oks, w) => statistics_of n (clock 0%nat) w /\ oks = repeat 0 n)).
    { unfold mem_verify_main. fold n. eapply wp_bind. { apply keygen_run; auto. apply zeros_bytes. } intros [[sk pk] st] (_ & G & _).
      destruct (C39_keys X p wf LX _ _ _ _ G) as (KF & _).
      destruct (C41_verify X p wf LX pk test_message (repeat 0 (sizeof_sign p)) KF) as (S & R & _).
      { apply bytes_of_check. reflexivity. } { apply zeros_bytes. } { apply C41_full_size; auto. rewrite repeat_length. lia. }
      eapply wp_bind. { apply (verify_each_const X p fuel junk n pk _ 0); [|apply S]. intros x E. destruct (R _ _ _ E) as [(_ & HV)|(-> & _)]; auto.
        apply C52_zero_signature in HV; [contradiction|auto]. }
      intros oks E. cbn [wp]. auto. }
    apply wp_out in V. destruct V as (V1 & V2). split; auto. intros oks w E. apply (V2 (oks, w) E).
  - assert (V : wp (mem_benchmark_main X p fuel junk clock) (fun '(oks, (w0, w1, w2)) =>
      statistics_of n (clock 0%nat) w0 /\ statistics_of n (clock 1%nat) w1 /\ statistics_of n (clock 2%nat) w2 /\ oks = repeat 1 n)).
    { unfold mem_benchmark_main. fold n. eapply wp_bind. { apply keygen_times_ok; auto. apply zeros_bytes. } intros [[sk pk] st] (L & KP). specialize (KP ltac:(lia)).
      eapply wp_bind. { apply sign_times_ok; auto. apply zeros_bytes. } intros [sig st'] H. destruct (H ltac:(lia)) as (s1 & old & num & s2 & Lo & Bo & E).
      pose proof (C01_correct X p wf LX fuel sk pk KP fuel junk s1 test_message old sig num s2 Lo Bo E fuel junk (Nat.le_refl _)) as C.
      eapply wp_bind. { apply (verify_each_const X p fuel junk n pk sig 1); rewrite C; [intros x Q; congruence|discriminate]. }
      intros oks Eo. cbn [wp]. auto. }
    apply wp_out in V. destruct V as (V1 & V2). split; auto. intros oks w0 w1 w2 E. apply (V2 (oks, (w0, w1, w2)) E).
  - assert (V : wp (speed_benchmark_main X p fuel junk clock) (fun '(verdict, (w0, w1, w2, w3)) =>
      statistics_of n (clock 0%nat) w0 /\ statistics_of n (clock 1%nat) w1 /\ statistics_of n (clock 2%nat) w2 /\ statistics_of n (clock 3%nat) w3 /\
      verdict = "functional"%string)).
    { unfold speed_benchmark_main. fold n. eapply wp_bind. { apply microbench_ok; auto. } intros [G st] _.
      eapply wp_bind. { apply speed_ok; auto. lia. } intros verdict ->. cbn [wp]. auto. }
    apply wp_out in V. destruct V as (V1 & V2). split; auto. intros verdict w0 w1 w2 w3 E. apply (V2 (verdict, (w0, w1, w2, w3)) E).
Qed.

(** Four samples, one of them measured across the end of the range of the counter. *)
Definition ex_ticks : list Z := [2000; 4000; 4000; 6000].
Definition ex_clock (i : nat) : Z := nth i [10; 2010; 2 ^ 64 - 1000; 3000; 5; 4005; 0; 6000] 0.
Example C52_example : (forall i, (i < 4)%nat -> lasts ex_clock i (nth i ex_ticks 0)) /\
  let w := timed 4 0 ex_clock welford_init in (w_mean w == 4 /\ w_M2 w == 8 /\ welford_var w == 8 # 3)%Q.
Proof.
  split; [|repeat split; vm_compute; reflexivity].
  intros i Hi. unfold lasts. destruct i as [|[|[|[|i]]]]; [..|lia]; cbn; lia.
Qed.

(** The verification that less_verify.c measures, with the toy parameters. *)
Example C52_example_verify : verify_each toyX toy_params 1000 toy_junk 1 toy_pk (repeat 0 (sizeof_sign toy_params)) = Ok [0].
Proof. vm_compute. reflexivity. Qed.

Print Assumptions C52_statistics.
Print Assumptions C52_timing.
Print Assumptions C52_zero_signature.
Print Assumptions C52_programs.
