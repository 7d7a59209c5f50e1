(** C65: any sequence of API calls with one generator. *)
From Verif Require Import Base BaseLemmas Params ParamsProofs Prim Less Sign Session Spec KeccakSpec LessSpec Fips202 Fips202Proofs Fips202Inst
  SeedTreeProofs Toy ApiProofs PropScheme PropApi PropSpec PropDet PropHash.

(** Calls with buffers of the declared sizes and with keys that exist, when there are [nk] key pairs already. Opening is restricted as
    in C04. *)
Fixpoint allowed (p : params) (nk : nat) (cs : list call) : Prop :=
  match cs with
  | [] => True
  | Keypair pk0 sk0 :: r => length sk0 = sizeof_sk p /\ length pk0 = sizeof_pk p /\ bytes pk0 /\ allowed p (S nk) r
  | Sign k sm0 m :: r =>
      (k < nk)%nat /\ bytes m /\ bytes sm0 /\ (length m + sizeof_sign p <= length sm0)%nat /\ Z.of_nat (length sm0) < 2 ^ 64 /\ allowed p nk r
  | Open k m0 sm smlen :: r =>
      (k < nk)%nat /\ bytes sm /\ Z.of_nat (length sm) < 2 ^ 64 /\ (1 <= smlen <= length sm)%nat /\ (smlen <= length m0)%nat /\
      (forall c, nth (smlen - 1) sm 0 = Z.of_nat c -> Z.of_nat c < max_seeds p ->
         (off_seeds p + c * seed_len p + 1 <= smlen /\ smlen - (off_seeds p + c * seed_len p + 1) + (sizeof_sign p - 1) <= length sm)%nat) /\
      allowed p nk r
  end.

(** The key pairs among the answers. *)
Definition keys_of (l : list answer) : list (list Z * list Z) :=
  flat_map (fun a => match a with Keys _ pk sk => [(pk, sk)] | _ => [] end) l.

(** Bytes that a call takes from the generator, and that a list of calls takes. *)
Definition drawn (p : params) (c : call) : nat :=
  match c with Keypair _ _ => 3 * seed_len p | Sign _ _ _ => seed_len p + hash_len p | Open _ _ _ _ => 0 end.
Definition offset (p : params) (cs : list call) : nat := list_sum (map (drawn p) cs).

(** The output of the generator is one stream: it does not matter in which portions it is requested. *)
Definition one_stream (X : prim) : Prop :=
  forall a b s, fst (x_squeeze X (a + b) s) = fst (x_squeeze X a s) ++ fst (x_squeeze X b (snd (x_squeeze X a s))).

(** Bytes [o], ..., [o + n - 1] of the stream of the generator seeded with [seed]. *)
Definition window (X : prim) (seed : list Z) (o n : nat) : list Z := skipn o (fst (x_squeeze X (o + n) (x_init X seed))).

Section R.
Variable X : prim.
Variable p : params.
Hypothesis wf : wf_params p.
Hypothesis LX : lawful X (hash_len p).

Definition after_call (rng : xstate X) (c : call) : xstate X :=
  match c with
  | Keypair _ _ => snd (x_squeeze X (seed_len p) (snd (x_squeeze X (2 * seed_len p) rng)))
  | Sign _ _ _ => snd (x_squeeze X (hash_len p) (snd (x_squeeze X (seed_len p) rng)))
  | Open _ _ _ _ => rng
  end.

Definition keys_ok (fuel : nat) (keys : list (list Z * list Z)) : Prop := Forall (fun k => api_keypair X p fuel (snd k) (fst k)) keys.

Lemma keygen_call fuel junk rng pk0 sk0 : length sk0 = sizeof_sk p -> length pk0 = sizeof_pk p -> bytes pk0 ->
  crypto_sign_keypair X p fuel junk rng pk0 sk0 <> UB.
Proof.
  intros H1 H2 H3. unfold crypto_sign_keypair.
  rewrite rd_ok by lia. cbn [bind skipn]. rewrite rd_ok by lia. cbn [bind skipn]. rewrite <- H1, <- H2, !firstn_all.
  destruct (C08_keygen_safe X p wf LX fuel junk rng sk0 pk0 H1 H2 H3) as [U S].
  destruct (LESS_keygen X p fuel junk rng sk0 pk0) as [[[sk1 pk1] rng1]| |]; cbn [bind]; try discriminate; [|congruence].
  destruct (S _ _ _ eq_refl) as (L1 & L2 & _). rewrite !wr_ok by lia. cbn [bind]. discriminate.
Qed.

Lemma sign_call fuel junk rng sm0 m sk ret sm smlen rng' : length sk = sizeof_sk p -> bytes sm0 -> bytes m ->
  (length m + sizeof_sign p <= length sm0)%nat ->
  crypto_sign X p fuel junk rng sm0 m sk = Ok (ret, sm, smlen, rng') ->
  exists num, LESS_sign X p fuel junk rng sk m (slice sm0 (length m) (sizeof_sign p)) = Ok (slice sm (length m) (sizeof_sign p), num, rng').
Proof.
  intros H1 H2 H3 H4 E. unfold crypto_sign in E. rewrite wr_ok in E by lia. cbn [bind firstn app Nat.add] in E.
  rewrite rd_ok in E by (rewrite app_length, skipn_length; lia). cbn [bind] in E.
  rewrite skipn_app, skipn_all2, Nat.sub_diag in E by lia. cbn [app skipn] in E.
  assert (LS : length (slice sm0 (length m) (sizeof_sign p)) = sizeof_sign p).
  { unfold slice. rewrite firstn_length, skipn_length. lia. }
  destruct (C08_sign_safe X p wf LX fuel junk rng sk m (slice sm0 (length m) (sizeof_sign p)) H1 LS) as [_ S].
  { unfold slice. apply Forall_firstn, Forall_skipn. auto. }
  unfold slice in S. unfold slice at 1.
  destruct (LESS_sign X p fuel junk rng sk m (firstn (sizeof_sign p) (skipn (length m) sm0))) as [[[sg num] rng1]| |]; cbn [bind] in E; try discriminate.
  destruct (S _ _ _ eq_refl) as (L1 & _). rewrite wr_ok in E by (rewrite app_length, skipn_length; lia). cbn [bind] in E.
  injection E as _ <- _ <-. exists num. f_equal. f_equal. f_equal. unfold slice.
  rewrite firstn_app, firstn_all, Nat.sub_diag. cbn [firstn]. rewrite app_nil_r, skipn_app, skipn_all, Nat.sub_diag. cbn [skipn app].
  rewrite firstn_app, L1, Nat.sub_diag. cbn [firstn]. rewrite app_nil_r. rewrite <- L1. symmetry. apply firstn_all.
Qed.

(** One call. *)
Lemma call_step fuel junk n rng keys c r : keys_ok fuel keys -> allowed p (length keys) (c :: r) ->
  api_call X p fuel junk n rng keys c <> UB /\
  forall a rng' keys', api_call X p fuel junk n rng keys c = Ok (a, rng', keys') ->
    rng' = after_call rng c /\ keys' = keys ++ keys_of [a] /\ keys_ok fuel keys' /\ allowed p (length keys') r.
Proof.
  intros HK HA. destruct c as [pk0 sk0|k sm0 m|k m0 sm smlen]; cbn [allowed api_call after_call] in *.
  - destruct HA as (A1 & A2 & A3 & A4). split.
    + pose proof (keygen_call fuel (junk n) rng pk0 sk0 A1 A2 A3) as U.
      destruct (crypto_sign_keypair X p fuel (junk n) rng pk0 sk0) as [[[[ret pk] sk] rng1]| |]; cbn [bind]; try discriminate. congruence.
    + intros a rng' keys' E. apply bind_ok in E. destruct E as ([[[ret pk] sk] rng1] & E & E1). injection E1 as <- <- <-.
      destruct (honest_keypair X p fuel (junk n) rng rng1 ret sk0 pk0 sk pk wf LX A1 A2 A3 E) as (_ & EK & _ & _).
      destruct (C30_keygen X p wf LX fuel (junk n) rng sk0 pk0 sk pk rng1 A1 A2 A3 EK) as [-> _].
      split; [reflexivity|]. split; [reflexivity|]. split.
      * apply Forall_app. split; auto. constructor; [|constructor]. do 6 eexists. eauto.
      * rewrite app_length. cbn [length]. rewrite Nat.add_1_r. exact A4.
  - destruct HA as (A1 & A2 & A3 & A4 & A5 & A6).
    assert (HG : exists pk sk, get keys k = Ok (pk, sk) /\ api_keypair X p fuel sk pk).
    { destruct (nth_error keys k) as [[pk sk]|] eqn:EN; [|apply nth_error_None in EN; lia]. exists pk, sk. unfold get. rewrite EN. split; auto.
      apply (proj1 (Forall_forall _ _) HK (pk, sk)). eapply nth_error_In. eauto. }
    destruct HG as (pk & sk & -> & HP). cbn [bind]. destruct (api_honest X p fuel sk pk wf LX HP) as (_ & LS & _). split.
    + pose proof (crypto_sign_spec X p wf LX fuel (junk n) rng sm0 m sk LS A3 A2 A4 A5) as W.
      destruct (crypto_sign X p fuel (junk n) rng sm0 m sk) as [[[[ret sm] smlen] rng1]| |]; cbn [wp] in W; cbn [bind]; try discriminate. destruct W.
    + intros a rng' keys' E. apply bind_ok in E. destruct E as ([[[ret sm] smlen] rng1] & E & E1). injection E1 as <- <- <-.
      destruct (sign_call fuel (junk n) rng sm0 m sk ret sm smlen rng1 LS A3 A2 A4 E) as (num & ES).
      destruct (C30_sign X p wf LX fuel (junk n) rng sk m (slice sm0 (length m) (sizeof_sign p)) (slice sm (length m) (sizeof_sign p)) num rng1 LS ltac:(unfold slice; rewrite firstn_length, skipn_length; lia)
                 ltac:(unfold slice; apply Forall_firstn, Forall_skipn; auto) ES) as [-> _].
      cbn [keys_of flat_map app]. rewrite app_nil_r. auto.
  - destruct HA as (A1 & A2 & A3 & A4 & A5 & A6 & A7).
    assert (HG : exists pk sk, get keys k = Ok (pk, sk) /\ api_keypair X p fuel sk pk).
    { destruct (nth_error keys k) as [[pk sk]|] eqn:EN; [|apply nth_error_None in EN; lia]. exists pk, sk. unfold get. rewrite EN. split; auto.
      apply (proj1 (Forall_forall _ _) HK (pk, sk)). eapply nth_error_In. eauto. }
    destruct HG as (pk & sk & -> & HP). cbn [bind]. destruct (api_honest X p fuel sk pk wf LX HP) as (_ & _ & KP). split.
    + destruct (C04_open_safe_partial X p wf LX fuel sk pk KP fuel (junk n) m0 sm smlen A2 A3 A4 A5 A6) as [U _].
      destruct (crypto_sign_open X p fuel (junk n) m0 sm (Z.of_nat smlen) pk) as [[[ret m] mlen]| |]; cbn [bind]; try discriminate. congruence.
    + intros a rng' keys' E. apply bind_ok in E. destruct E as ([[ret m] mlen] & E & E1). injection E1 as <- <- <-.
      cbn [keys_of flat_map app]. rewrite app_nil_r. auto.
Qed.

Lemma calls_safe fuel junk cs : forall n rng keys, keys_ok fuel keys -> allowed p (length keys) cs -> api_calls X p fuel junk n rng keys cs <> UB.
Proof.
  induction cs as [|c cs IH]; intros n rng keys HK HA; cbn [api_calls]; [discriminate|].
  destruct (call_step fuel junk n rng keys c cs HK HA) as [U S].
  destruct (api_call X p fuel junk n rng keys c) as [[[a rng'] keys']| |]; cbn [bind]; try discriminate; [|congruence].
  destruct (S _ _ _ eq_refl) as (_ & _ & HK' & HA'). specialize (IH (Datatypes.S n) rng' keys' HK' HA').
  destruct (api_calls X p fuel junk (Datatypes.S n) rng' keys' cs); cbn [bind]; try discriminate. congruence.
Qed.

(** Call number [i] of a run: the state of the generator and the key pairs it meets, and its answer. *)
Lemma call_at fuel junk cs : forall n rng keys l, keys_ok fuel keys -> allowed p (length keys) cs -> api_calls X p fuel junk n rng keys cs = Ok l ->
  length l = length cs /\
  forall i c, nth_error cs i = Some c -> exists a rng' keys', nth_error l i = Some a /\
    api_call X p fuel junk (n + i) (fold_left after_call (firstn i cs) rng) (keys ++ keys_of (firstn i l)) c = Ok (a, rng', keys') /\
    keys_ok fuel (keys ++ keys_of (firstn i l)) /\ allowed p (length (keys ++ keys_of (firstn i l))) (skipn i cs).
Proof.
  induction cs as [|c cs IH]; intros n rng keys l HK HA E.
  - cbn [api_calls] in E. injection E as <-. split; auto. intros i c H. destruct i; discriminate.
  - cbn [api_calls] in E. apply bind_ok in E. destruct E as ([[a rng'] keys'] & E1 & E). apply bind_ok in E. destruct E as (l' & E2 & E). injection E as <-.
    destruct (call_step fuel junk n rng keys c cs HK HA) as [_ S]. destruct (S _ _ _ E1) as (-> & -> & HK' & HA').
    destruct (IH (Datatypes.S n) _ _ l' HK' HA' E2) as [L G]. split. { cbn [length]. lia. }
    intros i c' H. destruct i as [|i].
    + cbn [nth_error] in H. injection H as <-. exists a. do 2 eexists. split; [reflexivity|]. cbn [firstn fold_left keys_of flat_map skipn]. rewrite app_nil_r, Nat.add_0_r. eauto.
    + cbn [nth_error] in H. destruct (G i c' H) as (a' & rng2 & keys2 & G1 & G2 & G3 & G4). exists a', rng2, keys2. split; auto.
      cbn [firstn fold_left skipn]. replace (keys ++ keys_of (a :: firstn i l')) with ((keys ++ keys_of [a]) ++ keys_of (firstn i l')).
      { rewrite <- Nat.add_succ_comm. auto. } rewrite <- app_assoc. f_equal. cbn [keys_of flat_map]. rewrite app_nil_r. reflexivity.
Qed.

Lemma keys_prefix (l : list answer) i k x : nth_error (keys_of (firstn i l)) k = Some x -> nth_error (keys_of l) k = Some x.
Proof.
  intros H. rewrite <- (firstn_skipn i l). unfold keys_of in *. rewrite flat_map_app. rewrite nth_error_app1; auto.
  apply nth_error_Some. congruence.
Qed.

(** *** The stream *)
Hypothesis OS : one_stream X.

Lemma after_reads a s k : fst (x_squeeze X k (snd (x_squeeze X a s))) = skipn a (fst (x_squeeze X (a + k) s)).
Proof.
  rewrite OS, skipn_app, (law_sq_len _ _ LX), Nat.sub_diag, skipn_all2 by (rewrite (law_sq_len _ _ LX); auto). reflexivity.
Qed.

(** [st] delivers what the generator in state [s] delivers after [o] bytes. *)
Definition delivers (s : xstate X) (o : nat) (st : xstate X) : Prop := forall k, fst (x_squeeze X k st) = skipn o (fst (x_squeeze X (o + k) s)).

Lemma delivers_after s o st a : delivers s o st -> delivers s (o + a) (snd (x_squeeze X a st)).
Proof.
  intros D k. rewrite after_reads, D, skipn_skipn, Nat.add_assoc. reflexivity.
Qed.

Lemma delivers_call s o st c : delivers s o st -> delivers s (o + drawn p c) (after_call st c).
Proof.
  intros D. destruct c; cbn [drawn after_call].
  - replace (o + 3 * seed_len p)%nat with (o + 2 * seed_len p + seed_len p)%nat by lia. apply delivers_after, delivers_after, D.
  - rewrite Nat.add_assoc. apply delivers_after, delivers_after, D.
  - rewrite Nat.add_0_r. exact D.
Qed.

Lemma delivers_calls cs : forall s o st, delivers s o st -> delivers s (o + offset p cs) (fold_left after_call cs st).
Proof.
  induction cs as [|c cs IH]; intros s o st D; cbn [fold_left]; unfold offset; cbn [map list_sum fold_right].
  - rewrite Nat.add_0_r. exact D.
  - rewrite Nat.add_assoc. apply IH, delivers_call, D.
Qed.
End R.

(** *** C65 *)

(** However the calls are ordered, none of them leaves its buffers. *)
Theorem C65_safe : forall X p, wf_params p -> lawful X (hash_len p) ->
  forall fuel junk seed cs, allowed p 0 cs ->
  session X p fuel junk seed cs <> UB /\ forall l, session X p fuel junk seed cs = Ok l -> length l = length cs.
Proof.
  intros X p wf LX fuel junk seed cs HA. split.
  - apply calls_safe; auto. constructor.
  - intros l E. destruct (call_at X p wf LX fuel junk cs 0 _ [] l ltac:(constructor) HA E). auto.
Qed.

(** What was signed in a session with key pair [k] opens in it with key pair [k], whatever else is done before, between and after,
    and whatever follows the signed message in the buffer; the exception is that of C02. *)
Theorem C65_opens : forall X p, wf_params p -> lawful X (hash_len p) ->
  forall fuel junk seed cs l, allowed p 0 cs -> session X p fuel junk seed cs = Ok l ->
  forall i k sm0 m ret sm smlen, nth_error cs i = Some (Sign k sm0 m) -> nth_error l i = Some (Signed ret sm (Z.of_nat smlen)) ->
  forall j m0 sm', nth_error cs j = Some (Open k m0 sm' smlen) -> firstn smlen sm' = firstn smlen sm ->
  nth_error l j = Some
    (if nth (smlen - 1) sm 0 =? max_seeds p then Opened (-1) m0 None
     else Opened 0 (m ++ skipn (length m) m0) (Some (Z.of_nat (length m)))).
Proof.
  intros X p wf LX fuel junk seed cs l HA E i k sm0 m ret sm smlen C1 L1 j m0 sm' C2 HF.
  destruct (call_at X p wf LX fuel junk cs 0 _ [] l ltac:(constructor) HA E) as [_ G].
  destruct (G i _ C1) as (a1 & r1 & k1 & G1 & G2 & G3 & G4). destruct (G j _ C2) as (a2 & r2 & k2 & H1 & H2 & H3 & H4).
  cbn [app] in *. rewrite L1 in G1. injection G1 as <-. cbn [api_call] in G2, H2.
  apply bind_ok in G2. destruct G2 as ([pk sk] & G2 & G5). apply bind_ok in H2. destruct H2 as ([pk' sk'] & H2 & H5).
  assert (N1 : nth_error (keys_of l) k = Some (pk, sk)).
  { apply (keys_prefix l i). unfold get in G2. destruct (nth_error (keys_of (firstn i l)) k); congruence. }
  assert (N2 : nth_error (keys_of l) k = Some (pk', sk')).
  { apply (keys_prefix l j). unfold get in H2. destruct (nth_error (keys_of (firstn j l)) k); congruence. }
  rewrite N1 in N2. injection N2 as <- <-.
  assert (HP : api_keypair X p fuel sk pk).
  { unfold get in G2. destruct (nth_error (keys_of (firstn i l)) k) eqn:EN; [|discriminate]. injection G2 as ->.
    apply (proj1 (Forall_forall _ _) G3 (pk, sk)). eapply nth_error_In. eauto. }
  assert (A1 : exists r, skipn i cs = Sign k sm0 m :: r).
  { clear -C1. revert i C1. induction cs as [|c cs IH]; intros [|i] C; cbn [nth_error skipn] in *; try discriminate; eauto. injection C as ->. eauto. }
  destruct A1 as (r & A1). rewrite A1 in G4. cbn [allowed] in G4. destruct G4 as (_ & B1 & B2 & B3 & B4 & _).
  assert (A2 : exists r, skipn j cs = Open k m0 sm' smlen :: r).
  { clear -C2. revert j C2. induction cs as [|c cs IH]; intros [|j] C; cbn [nth_error skipn] in *; try discriminate; eauto. injection C as ->. eauto. }
  destruct A2 as (r' & A2). rewrite A2 in H4. cbn [allowed] in H4. destruct H4 as (_ & D1 & D2 & D3 & D4 & _).
  apply bind_ok in G5. destruct G5 as ([[[ret' sm1] smlen1] rng1] & G5 & G6). injection G6 as -> -> -> _ _.
  assert (LM : (length m <= length m0)%nat).
  { destruct (api_honest X p fuel sk pk wf LX HP) as (_ & LS & _).
    destruct (C03_layout X p wf LX fuel _ _ sm0 m sk ret sm _ rng1 LS B2 B1 B3 B4 G5) as (_ & _ & _ & _ & _ & n & N3 & _ & N4 & _).
    assert (0 <= n * Z.of_nat (seed_len p)) by nia. assert (0 <= Z.of_nat (pW p) * Z.of_nat (mono_bytes p)) by nia. lia. }
  assert (HS : api_signed X p fuel sk m sm (Z.of_nat smlen)).
  { do 5 eexists. split; [exact B1|]. split; [exact B2|]. split; [exact B3|]. split; [exact B4|]. exact G5. }
  pose proof (C02_open X p wf LX fuel sk pk HP fuel m sm (Z.of_nat smlen) HS fuel (junk (0 + j)%nat) m0 sm' (le_n _) D1 D2) as O.
  rewrite !Nat2Z.id in O. specialize (O ltac:(lia) HF LM). rewrite O in H5. rewrite H1.
  destruct (nth (smlen - 1) sm 0 =? max_seeds p); cbn [bind] in H5; injection H5 as <- _ _; reflexivity.
Qed.

(** If the generator has one stream, call number [i] works with the part of the stream that begins where the previous calls
    ended: the secret key is that part of the stream; of the bytes for a signature the first SEED_LENGTH_BYTES are
    the root of the seed tree and the others the salt. Parts of different calls do not overlap, so no randomness is
    used twice (C62 is what happens otherwise). *)
Theorem C65_stream : forall X p, wf_params p -> lawful X (hash_len p) -> one_stream X ->
  forall fuel junk seed cs l, allowed p 0 cs -> session X p fuel junk seed cs = Ok l ->
  (forall i pk0 sk0, nth_error cs i = Some (Keypair pk0 sk0) -> exists ret pk sk st st',
     nth_error l i = Some (Keys ret pk sk) /\
     sk = window X seed (offset p (firstn i cs)) (3 * seed_len p) /\
     (forall n, fst (x_squeeze X n st) = window X seed (offset p (firstn i cs)) n) /\ generates X p st sk pk st') /\
  (forall i k sm0 m, nth_error cs i = Some (Sign k sm0 m) -> exists ret sm smlen pk sk num st st',
     nth_error l i = Some (Signed ret sm smlen) /\ nth_error (keys_of l) k = Some (pk, sk) /\
     bytes_at sm (length m) (hash_len p) = window X seed (offset p (firstn i cs) + seed_len p) (hash_len p) /\
     (forall n, fst (x_squeeze X n st) = window X seed (offset p (firstn i cs)) n) /\
     signs X p st sk m (bytes_at sm0 (length m) (sizeof_sign p)) (bytes_at sm (length m) (sizeof_sign p)) num st') /\
  (forall i j c, (i < j <= length cs)%nat -> nth_error cs i = Some c -> (offset p (firstn i cs) + drawn p c <= offset p (firstn j cs))%nat).
Proof.
  intros X p wf LX OS fuel junk seed cs l HA E.
  destruct (call_at X p wf LX fuel junk cs 0 _ [] l ltac:(constructor) HA E) as [_ G].
  assert (DV : forall i, delivers X (x_init X seed) (offset p (firstn i cs)) (fold_left (after_call X p) (firstn i cs) (x_init X seed))).
  { intros i. apply (delivers_calls X p LX OS (firstn i cs) _ 0). intros k. reflexivity. }
  assert (SK : forall i c, nth_error cs i = Some c -> exists r, skipn i cs = c :: r).
  { clear. induction cs as [|c cs IH]; intros [|i] c' C; cbn [nth_error skipn] in *; try discriminate; eauto. injection C as ->. eauto. }
  split; [|split].
  - intros i pk0 sk0 C. destruct (G i _ C) as (a & r1 & k1 & G1 & G2 & _ & G4). cbn [app] in *. destruct (SK i _ C) as (r & SC). rewrite SC in G4.
    cbn [allowed] in G4. destruct G4 as (B1 & B2 & B3 & _). cbn [api_call] in G2. apply bind_ok in G2.
    destruct G2 as ([[[ret pk] sk] rng1] & G2 & G3). injection G3 as <- _ _.
    destruct (honest_keypair X p fuel _ _ rng1 ret sk0 pk0 sk pk wf LX B1 B2 B3 G2) as (_ & EK & _ & _).
    pose proof (proj1 (C39_keygen X p wf LX _ sk pk rng1) _ _ _ _ B1 B2 B3 EK) as GE.
    exists ret, pk, sk. do 2 eexists. split; [exact G1|]. split; [|split; [apply DV|exact GE]].
    destruct GE as (csk & g0 & rg & G0 & Q1 & Q2 & -> & _). pose proof (DV i (3 * seed_len p)%nat) as D. unfold window. rewrite <- D.
    replace (3 * seed_len p)%nat with (prikey_seed_len p + seed_len p)%nat by (unfold prikey_seed_len; lia).
    rewrite OS, Q1. cbn [fst snd]. rewrite Q2. reflexivity.
  - intros i k sm0 m C. destruct (G i _ C) as (a & r1 & k1 & G1 & G2 & G3 & G4). cbn [app] in *. destruct (SK i _ C) as (r & SC). rewrite SC in G4.
    cbn [allowed] in G4. destruct G4 as (B0 & B1 & B2 & B3 & B4 & _). cbn [api_call] in G2. apply bind_ok in G2.
    destruct G2 as ([pk sk] & G2 & G5). apply bind_ok in G5. destruct G5 as ([[[ret sm] smlen] rng1] & G5 & G6). injection G6 as <- _ _.
    assert (N1 : nth_error (keys_of (firstn i l)) k = Some (pk, sk)).
    { unfold get in G2. destruct (nth_error (keys_of (firstn i l)) k); congruence. }
    assert (HP : api_keypair X p fuel sk pk). { apply (proj1 (Forall_forall _ _) G3 (pk, sk)). eapply nth_error_In. eauto. }
    destruct (api_honest X p fuel sk pk wf LX HP) as (_ & LS & _).
    destruct (sign_call X p wf LX fuel _ _ sm0 m sk ret sm smlen rng1 LS B2 B1 B3 G5) as (num & ES).
    assert (LO : length (slice sm0 (length m) (sizeof_sign p)) = sizeof_sign p) by (unfold slice; rewrite firstn_length, skipn_length; lia).
    assert (BO : bytes (slice sm0 (length m) (sizeof_sign p))) by (unfold slice; apply Forall_firstn, Forall_skipn; auto).
    pose proof (proj1 (C40_sign X p wf LX _ sk m _ _ num rng1 LS LO BO B1) _ _ ES) as SG.
    exists ret, sm, smlen, pk, sk, num. do 2 eexists. split; [exact G1|]. split; [eapply keys_prefix; exact N1|]. split; [|split; [apply DV|exact SG]].
    destruct SG as (root & salt & rg & G0 & rounds & chal & nodes & seeds & Q1 & Q2 & _ & _ & _ & _ & _ & Q3 & _).
    pose proof (delivers_after X p LX OS _ _ _ (seed_len p) (DV i) (hash_len p)) as D. rewrite Q1 in D. cbn [snd] in D. rewrite Q2 in D. cbn [fst] in D.
    unfold window. rewrite <- D, <- Q3. unfold bytes_at, slice. rewrite skipn_O, firstn_firstn, Nat.min_l by (unfold sizeof_sign, off_seeds, off_digest; lia). reflexivity.
  - clear. intros i j c H C. revert i j C H. induction cs as [|d cs IH]; intros i j C H. { destruct i; discriminate. }
    destruct j as [|j]; [lia|]. destruct i as [|i]; cbn [nth_error firstn] in *; unfold offset in *; cbn [map list_sum fold_right] in *.
    + injection C as <-. lia.
    + cbn [length] in H. specialize (IH i j C ltac:(lia)). unfold list_sum in IH. lia.
Qed.

(** The generator of LESS has one stream, and it is SHAKE128 or SHAKE256 of the seed. *)
Theorem C65_shake : forall p seed, bytes seed ->
  one_stream (lessX p) /\
  forall o n, exists s, byte_string s (o + n) (match p_cat p with Cat1 => SHAKE128 seed (8 * (o + n)) | _ => SHAKE256 seed (8 * (o + n)) end) /\
    window (lessX p) seed o n = skipn o s.
Proof.
  intros p seed Hs. split.
  - intros a b s. change (state (xof_rate p)) in s.
    change (fst (s_squeeze (xof_rate p) (a + b) s) = fst (s_squeeze (xof_rate p) a s) ++ fst (s_squeeze (xof_rate p) b (snd (s_squeeze (xof_rate p) a s)))).
    destruct (s_squeeze_eq (xof_rate p) (a + b) s) as [E1 _].
    destruct (s_squeeze_eq (xof_rate p) a s) as [E2 E3]. destruct (s_squeeze_eq (xof_rate p) b (snd (s_squeeze (xof_rate p) a s))) as [E4 _].
    rewrite E1, E2, E4, E3, sq_plus. reflexivity.
  - intros o n. eexists. split; [|reflexivity]. apply (C25_less_primitives p seed [] (o + n) Hs). constructor.
Qed.

(** A session: a key pair, a signature, and the signature opened again. *)
Lemma toy_one_stream : one_stream toyX.
Proof.
  intros a b s. change (fst (lcg_bytes (a + b) s) = fst (lcg_bytes a s) ++ fst (lcg_bytes b (snd (lcg_bytes a s)))).
  revert s. induction a as [|a IH]; intros s; [reflexivity|]. cbn [Nat.add lcg_bytes]. cbv zeta. specialize (IH (lcg s)).
  destruct (lcg_bytes (a + b) (lcg s)). destruct (lcg_bytes a (lcg s)). cbn [fst snd] in *. rewrite IH. reflexivity.
Qed.

Definition session_msg : list Z := [8; 9; 10].
Definition session_sm : list Z := Eval vm_compute in
  snd (fst (fst (okd (0, [], 0, 0) (crypto_sign toyX toy_params 1000 toy_junk toy_rng5 (repeat 3 (3 + sizeof_sign toy_params)) session_msg toy_sk)))).
Lemma session_sign :
  crypto_sign toyX toy_params 1000 toy_junk toy_rng5 (repeat 3 (3 + sizeof_sign toy_params)) session_msg toy_sk = Ok (0, session_sm, 128, 52746).
Proof. vm_compute. reflexivity. Qed.

Definition session_calls : list call :=
  [Keypair (repeat 9 (sizeof_pk toy_params)) (repeat 9 (sizeof_sk toy_params));
   Sign 0 (repeat 3 (3 + sizeof_sign toy_params)) session_msg;
   Open 0 (repeat 7 150) session_sm 128].

Example C65_example :
  allowed toy_params 0 session_calls /\ one_stream toyX /\
  session toyX toy_params 1000 (fun _ => toy_junk) [0; 8; 228] session_calls =
    Ok [Keys 0 toy_pk toy_sk; Signed 0 session_sm 128; Opened 0 (session_msg ++ repeat 7 147) (Some 3)] /\
  map (fun i => offset toy_params (firstn i session_calls)) [0; 1; 2; 3]%nat = [0; 48; 96; 96]%nat /\
  bytes_at session_sm 3 32 = window toyX [0; 8; 228] 64 32.
Proof.
  assert (B : bytes session_msg) by (repeat constructor; unfold is_byte; lia).
  assert (B3 : bytes (repeat 3 (3 + sizeof_sign toy_params))) by (apply repeat_bytes; unfold is_byte; lia).
  assert (L3 : (length session_msg + sizeof_sign toy_params <= length (repeat 3 (3 + sizeof_sign toy_params)))%nat) by (rewrite repeat_length; apply le_n).
  assert (Z3 : Z.of_nat (length (repeat 3 (3 + sizeof_sign toy_params))) < 2 ^ 64) by (rewrite repeat_length; vm_compute; reflexivity).
  assert (LS : length toy_sk = sizeof_sk toy_params) by reflexivity.
  assert (BS : bytes session_sm). { destruct (C03_layout toyX toy_params toy_wf toyX_lawful 1000 toy_junk toy_rng5 _ _ _ _ _ _ _ LS B3 B L3 Z3 session_sign) as (_ & _ & H & _). exact H. }
  split; [|split; [apply toy_one_stream|split; [|split; vm_compute; reflexivity]]].
  - unfold session_calls. cbn [allowed]. split; [apply repeat_length|]. split; [apply repeat_length|]. split; [apply repeat_bytes; unfold is_byte; lia|].
    split; [lia|]. split; [exact B|]. split; [exact B3|]. split; [exact L3|]. split; [exact Z3|].
    split; [lia|]. split; [exact BS|]. split; [vm_compute; reflexivity|]. split; [replace (length session_sm) with 144%nat by reflexivity; lia|].
    split; [rewrite repeat_length; lia|]. split; [|exact I].
    intros c Hc _. assert (Ec : c = 3%nat) by (apply Nat2Z.inj; rewrite <- Hc; vm_compute; reflexivity). subst c.
    split; apply Nat.leb_le; vm_compute; reflexivity.
  - unfold session, session_calls. cbn [api_calls api_call]. replace (x_init toyX [0; 8; 228]) with 5 by reflexivity.
    rewrite toy_keypair_run. cbn [bind app get nth_error]. rewrite session_sign. cbn [bind]. replace (Z.of_nat 128) with 128 by reflexivity. cbn [get nth_error bind].
    rewrite (C02_open toyX toy_params toy_wf toyX_lawful 1000 toy_sk toy_pk toy_api_keypair 1000 session_msg session_sm 128) with (sm' := session_sm).
    + replace (nth (Z.to_nat 128 - 1) session_sm 0 =? max_seeds toy_params) with false by reflexivity. reflexivity.
    + do 5 eexists. split; [exact B|]. split; [exact B3|]. split; [exact L3|]. split; [exact Z3|exact session_sign].
    + lia.
    + exact BS.
    + vm_compute. reflexivity.
    + apply Nat.leb_le. vm_compute. reflexivity.
    + reflexivity.
    + apply Nat.leb_le. vm_compute. reflexivity.
Qed.

Print Assumptions C65_safe.
Print Assumptions C65_opens.
Print Assumptions C65_stream.
Print Assumptions C65_shake.
