(** Properties C02, C03, C04, C26 and C29: the NIST API functions. *)
From Verif Require Import Base BaseLemmas Params ParamsProofs Fq Prim Samplers Monomial Codes SeedTree Utils Less Sign Spec
  FqProofs EnumProofs RrefProofs MonoProofs ActionProofs CodecProofs SamplerProofs SeedTreeProofs TreeFacts FuelProofs RoundProofs
  VerifyProofs SignerProofs AnyKeyProofs ApiProofs PropCodec PropMono PropCanon Toy PropScheme BadInputs ScriptRun.

(** A key pair from crypto_sign_keypair with buffers of the declared sizes. *)
Definition api_keypair (X : prim) (p : params) (fuel : nat) (sk pk : list Z) : Prop :=
  exists junk rng rng' ret sk0 pk0, length sk0 = sizeof_sk p /\ length pk0 = sizeof_pk p /\ bytes pk0 /\
    crypto_sign_keypair X p fuel junk rng pk0 sk0 = Ok (ret, pk, sk, rng').

(** [sm], [smlen] come from crypto_sign on [m], with a buffer large enough for any signature. *)
Definition api_signed (X : prim) (p : params) (fuel : nat) (sk m sm : list Z) (smlen : Z) : Prop :=
  exists junk rng rng' ret sm0, bytes m /\ bytes sm0 /\ (length m + sizeof_sign p <= length sm0)%nat /\
    Z.of_nat (length sm0) < 2 ^ 64 /\ crypto_sign X p fuel junk rng sm0 m sk = Ok (ret, sm, smlen, rng').

Lemma honest_keypair X p fuel junk rng rng' ret sk0 pk0 sk pk : wf_params p -> lawful X (hash_len p) ->
  length sk0 = sizeof_sk p -> length pk0 = sizeof_pk p -> bytes pk0 ->
  crypto_sign_keypair X p fuel junk rng pk0 sk0 = Ok (ret, pk, sk, rng') ->
  ret = 0 /\ LESS_keygen X p fuel junk rng sk0 pk0 = Ok (sk, pk, rng') /\ honest_key X p fuel sk pk /\ length sk = sizeof_sk p.
Proof.
  intros wf LX H1 H2 H3 E. unfold crypto_sign_keypair in E.
  rewrite rd_ok in E by lia. cbn [bind skipn] in E. rewrite rd_ok in E by lia. cbn [bind skipn] in E.
  rewrite <- H1, <- H2, !firstn_all in E.
  pose proof (LESS_keygen_spec X p wf LX fuel junk rng sk0 pk0 H1 H2 H3) as S.
  destruct (LESS_keygen X p fuel junk rng sk0 pk0) as [[[sk1 pk1] rng1]| |] eqn:EK; cbn [bind] in E; try discriminate.
  cbn [wp] in S. pose proof S as [(csk & g0 & c & fullG & S1 & S2 & S3 & S4 & S5 & _)].
  assert (L1 : length sk1 = sizeof_sk p) by (rewrite S1, app_length; unfold sizeof_sk; lia).
  rewrite !wr_ok in E by lia. cbn [bind firstn app Nat.add] in E.
  rewrite !skipn_all2 in E by lia. rewrite !app_nil_r in E. injection E as <- <- <- <-. auto.
Qed.

Lemma api_honest X p fuel sk pk : wf_params p -> lawful X (hash_len p) -> api_keypair X p fuel sk pk ->
  honest_key X p fuel sk pk /\ length sk = sizeof_sk p /\ keypair X p fuel sk pk.
Proof.
  intros wf LX (junk & rng & rng' & ret & sk0 & pk0 & H1 & H2 & H3 & E).
  destruct (honest_keypair X p fuel junk rng rng' ret sk0 pk0 sk pk wf LX H1 H2 H3 E) as (_ & A & B & C).
  split; auto. split; auto. exists junk, rng, rng', sk0, pk0. auto.
Qed.

(** Signed messages and openings with the toy primitives: [toy_msg] leads to a signature with two
    published seeds, another message to one with MAX_PUBLISHED_SEEDS = 4. *)
Definition toy_open (sm : list Z) : res (Z * list Z * option Z) :=
  crypto_sign_open toyX toy_params 1000 toy_junk [7; 7; 7; 7; 7] sm (Z.of_nat (length sm)) toy_pk.
Definition toy_sm80 : list Z := Eval vm_compute in toy_msg ++ toy_sig80.
Definition toy_sm80b : list Z := Eval vm_compute in [1; 2; 4] ++ toy_sig80b.

(** *** C03 *)

(** crypto_sign returns 0; the buffer then holds the message, the signature of sizeof_sign bytes and, after
    these, what it held before. The length is that of the property, and the last byte within that length is
    the number of published seeds, which is at most MAX_PUBLISHED_SEEDS. *)
Theorem C03_layout : forall X p, wf_params p -> lawful X (hash_len p) ->
  forall fuel junk rng sm0 m sk ret sm smlen rng', length sk = sizeof_sk p -> bytes sm0 -> bytes m ->
  (length m + sizeof_sign p <= length sm0)%nat -> Z.of_nat (length sm0) < 2 ^ 64 ->
  crypto_sign X p fuel junk rng sm0 m sk = Ok (ret, sm, smlen, rng') ->
  ret = 0 /\ length sm = length sm0 /\ bytes sm /\
  firstn (length m) sm = m /\
  skipn (length m + sizeof_sign p) sm = skipn (length m + sizeof_sign p) sm0 /\
  exists n, 0 <= n <= max_seeds p /\ nth (Z.to_nat smlen - 1) sm 0 = n /\
    smlen = Z.of_nat (length m) + (2 * Z.of_nat (hash_len p) + Z.of_nat (pW p) * Z.of_nat (mono_bytes p) + n * Z.of_nat (seed_len p) + 1) /\
    (Z.to_nat smlen <= length m + sizeof_sign p)%nat.
Proof.
  intros X p wf LX fuel junk rng sm0 m sk ret sm smlen rng' H1 H2 H3 H4 H5 E.
  pose proof (crypto_sign_spec X p wf LX fuel junk rng sm0 m sk H1 H2 H3 H4 H5) as S. rewrite E in S. cbn [wp] in S.
  destruct S as (-> & S1 & S2 & sig & num & tree & c & fullG & acts & Vs & fws & fl & HS & Es & El).
  pose proof (sg_len _ _ _ _ _ _ _ _ _ _ _ _ _ _ HS) as SL. pose proof (sg_max _ _ _ _ _ _ _ _ _ _ _ _ _ _ HS) as SM.
  pose proof (sg_maxb _ _ _ _ _ _ _ _ _ _ _ _ _ _ HS) as SMb. pose proof (sg_count _ _ _ _ _ _ _ _ _ _ _ _ _ _ HS) as SC.
  split; auto. split; auto. split; auto. split. { rewrite Es, firstn_app, firstn_all, Nat.sub_diag. cbn [firstn]. apply app_nil_r. }
  split. { rewrite Es, skipn_app, skipn_all2 by lia. cbn [app]. replace (length m + sizeof_sign p - length m)%nat with (sizeof_sign p) by lia.
    rewrite <- SL at 1. rewrite skipn_app, skipn_all, Nat.sub_diag. reflexivity. }
  assert (FIT : (off_seeds p + num * seed_len p + 1 <= sizeof_sign p)%nat) by (unfold sizeof_sign, seed_storage_len; lia).
  exists (Z.of_nat num). split; [lia|]. split.
  { rewrite El, Nat2Z.id, Es. replace (length m + off_seeds p + num * seed_len p + 1 - 1)%nat with (length m + (off_seeds p + num * seed_len p))%nat by lia.
    rewrite nth_app3 by lia. auto. }
  split. { rewrite El. unfold off_seeds. lia. } rewrite El, Nat2Z.id. lia.
Qed.

(** Two runs meeting the hypotheses: 3 + 2*32 + 2*6 + 2*16 + 1 = 112 bytes, and 144 bytes. *)
Lemma sign_api X p fuel junk rng sm m sk sm1 sg sig num rng' sm2 : wr sm 0 m = Ok sm1 -> rd sm1 (length m) (sizeof_sign p) = Ok sg ->
  LESS_sign X p fuel junk rng sk m sg = Ok (sig, num, rng') -> wr sm1 (length m) sig = Ok sm2 ->
  crypto_sign X p fuel junk rng sm m sk = Ok (0, sm2, u64 (Z.of_nat (length m) + less_crypto_bytes p (u32 (Z.of_nat num))), rng').
Proof. intros E1 E2 E3 E4. unfold crypto_sign. rewrite E1. cbn [bind]. rewrite E2. cbn [bind]. rewrite E3. cbn [bind]. rewrite E4. reflexivity. Qed.
Lemma toy_sm_run : crypto_sign toyX toy_params 1000 toy_junk 80 (repeat 3 (3 + sizeof_sign toy_params)) toy_msg toy_sk = Ok (0, toy_sm80, 112, toy_rng80).
Proof.
  refine (eq_trans (sign_api toyX toy_params 1000 toy_junk 80 (repeat 3 (3 + sizeof_sign toy_params)) toy_msg toy_sk
    (toy_msg ++ repeat 3 (sizeof_sign toy_params)) (repeat 3 (sizeof_sign toy_params)) toy_sig80 2 toy_rng80 toy_sm80 eq_refl eq_refl toy_sign_run eq_refl) _).
  apply (f_equal (fun n => Ok (0, toy_sm80, n, toy_rng80))). reflexivity.
Qed.
Lemma toy_sm_run_b : crypto_sign toyX toy_params 1000 toy_junk 80 (repeat 3 (3 + sizeof_sign toy_params)) [1; 2; 4] toy_sk = Ok (0, toy_sm80b, 144, toy_rng80).
Proof.
  refine (eq_trans (sign_api toyX toy_params 1000 toy_junk 80 (repeat 3 (3 + sizeof_sign toy_params)) [1; 2; 4] toy_sk
    ([1; 2; 4] ++ repeat 3 (sizeof_sign toy_params)) (repeat 3 (sizeof_sign toy_params)) toy_sig80b 4 toy_rng80 toy_sm80b eq_refl eq_refl toy_sign_run_b eq_refl) _).
  apply (f_equal (fun n => Ok (0, toy_sm80b, n, toy_rng80))). reflexivity.
Qed.
Example C03_example :
  crypto_sign toyX toy_params 1000 toy_junk 80 (repeat 3 (3 + sizeof_sign toy_params)) toy_msg toy_sk = Ok (0, toy_sm80, 112, toy_rng80) /\
  crypto_sign toyX toy_params 1000 toy_junk 80 (repeat 3 (3 + sizeof_sign toy_params)) [1; 2; 4] toy_sk = Ok (0, toy_sm80b, 144, toy_rng80) /\
  (firstn 3 toy_sm80, nth 111 toy_sm80 0, nth 143 toy_sm80b 0, length toy_sm80b, sizeof_sign toy_params) = (toy_msg, 2, 4, 144%nat, 141%nat).
Proof. split; [exact toy_sm_run|]. split; [exact toy_sm_run_b|]. vm_compute. reflexivity. Qed.

(** *** C02 *)

(** Whatever follows the signed message in memory, opening it gives back the message, unless the signature
    publishes exactly MAX_PUBLISHED_SEEDS seeds, in which case it is refused. *)
Theorem C02_open : forall X p, wf_params p -> lawful X (hash_len p) ->
  forall fk sk pk, api_keypair X p fk sk pk ->
  forall fs m sm smlen, api_signed X p fs sk m sm smlen ->
  forall fv junk m0 sm', (fs <= fv)%nat -> bytes sm' -> Z.of_nat (length sm') < 2 ^ 64 ->
    (Z.to_nat smlen <= length sm')%nat -> firstn (Z.to_nat smlen) sm' = firstn (Z.to_nat smlen) sm ->
    (length m <= length m0)%nat ->
  crypto_sign_open X p fv junk m0 sm' smlen pk =
    if nth (Z.to_nat smlen - 1) sm 0 =? max_seeds p then Ok (-1, m0, None)
    else Ok (0, m ++ skipn (length m) m0, Some (Z.of_nat (length m))).
Proof.
  intros X p wf LX fk sk pk HK fs m sm smlen (junk & rng & rng' & ret & sm0 & A1 & A2 & A3 & A4 & E) fv junk' m0 sm' Hf B1 B2 B3 B4 B5.
  destruct (api_honest X p fk sk pk wf LX HK) as (HH & HL & _).
  pose proof (crypto_sign_spec X p wf LX fs junk rng sm0 m sk HL A2 A1 A3 A4) as S. rewrite E in S. cbn [wp] in S.
  destruct S as (-> & S1 & S2 & sig & num & tree & c & fullG & acts & Vs & fws & fl & HS & Es & El).
  pose proof (sg_len _ _ _ _ _ _ _ _ _ _ _ _ _ _ HS) as SL.
  pose proof (sg_maxb _ _ _ _ _ _ _ _ _ _ _ _ _ _ HS) as SMb. pose proof (sg_count _ _ _ _ _ _ _ _ _ _ _ _ _ _ HS) as SC.
  assert (FIT : (off_seeds p + num * seed_len p + 1 <= sizeof_sign p)%nat) by (unfold sizeof_sign, seed_storage_len; lia).
  rewrite El in *. rewrite Nat2Z.id in *.
  rewrite (open_sign X p wf LX fk fs fv junk' sk pk m sig num tree c fullG acts Vs fws fl (skipn (length m + sizeof_sign p) sm0) sm' m0 _ HH HS Hf eq_refl B1 B3 B2).
  - replace (length m + off_seeds p + num * seed_len p + 1 - 1)%nat with (length m + (off_seeds p + num * seed_len p))%nat by lia.
    rewrite Es, nth_app3 by lia. rewrite SC. reflexivity.
  - rewrite B4, Es. reflexivity.
  - exact B5.
Qed.

(** For five of the seven parameter sets the exception cannot arise: the property holds as stated. *)
Theorem C02_five_sets : forall p, In p [cat1_short_sig; cat3_balanced; cat3_short_sig; cat5_balanced; cat5_short_sig] ->
  forall X, lawful X (hash_len p) ->
  forall fk sk pk, api_keypair X p fk sk pk ->
  forall fs m sm smlen, api_signed X p fs sk m sm smlen ->
  forall fv junk m0 sm', (fs <= fv)%nat -> bytes sm' -> Z.of_nat (length sm') < 2 ^ 64 ->
    (Z.to_nat smlen <= length sm')%nat -> firstn (Z.to_nat smlen) sm' = firstn (Z.to_nat smlen) sm ->
    (length m <= length m0)%nat ->
  crypto_sign_open X p fv junk m0 sm' smlen pk = Ok (0, m ++ skipn (length m) m0, Some (Z.of_nat (length m))).
Proof.
  intros p Hp X LX fk sk pk HK fs m sm smlen HS fv junk m0 sm' B0 B1 B2 B3 B4 B5. destruct (below_max p Hp) as [wf HM].
  rewrite (C02_open X p wf LX fk sk pk HK fs m sm smlen HS fv junk m0 sm' B0 B1 B2 B3 B4 B5).
  destruct HS as (junk' & rng & rng' & ret & sm0 & A1 & A2 & A3 & A4 & E).
  destruct (api_honest X p fk sk pk wf LX HK) as (HH & HL & _).
  pose proof (crypto_sign_spec X p wf LX fs junk' rng sm0 m sk HL A2 A1 A3 A4) as S. rewrite E in S. cbn [wp] in S.
  destruct S as (-> & S1 & S2 & sig & num & tree & c & fullG & acts & Vs & fws & fl & HS & Es & El).
  pose proof (sg_len _ _ _ _ _ _ _ _ _ _ _ _ _ _ HS) as SL.
  pose proof (sg_maxb _ _ _ _ _ _ _ _ _ _ _ _ _ _ HS) as SMb. pose proof (sg_count _ _ _ _ _ _ _ _ _ _ _ _ _ _ HS) as SC.
  assert (FIT : (off_seeds p + num * seed_len p + 1 <= sizeof_sign p)%nat) by (unfold sizeof_sign, seed_storage_len; lia).
  assert (EN : nth (Z.to_nat smlen - 1) sm 0 = Z.of_nat num).
  { rewrite El, Nat2Z.id, Es. replace (length m + off_seeds p + num * seed_len p + 1 - 1)%nat with (length m + (off_seeds p + num * seed_len p))%nat by lia.
    rewrite nth_app3 by lia. auto. }
  rewrite EN. destruct (to_publish_ok p fws (sg_fws _ _ _ _ _ _ _ _ _ _ _ _ _ _ HS)) as (P1 & P2 & P3).
  pose proof (wf_W p wf). pose proof (npub_most p wf _ P1 P2 fl (sg_flags _ _ _ _ _ _ _ _ _ _ _ _ _ _ HS) ltac:(lia)) as NM.
  rewrite (sg_num _ _ _ _ _ _ _ _ _ _ _ _ _ _ HS). rewrite P3 in NM.
  destruct (Z.eqb_spec (Z.of_nat (npub p fl)) (max_seeds p)); [lia|]. reflexivity.
Qed.

(** For the two other sets it does arise: whatever the message, there are hash and generator outputs for which
    the library refuses the message it has just signed. *)
Theorem C02_refuted : forall p, In p [cat1_balanced; cat1_intermediate] ->
  exists X, lawful X (hash_len p) /\ exists fuel sk pk, api_keypair X p fuel sk pk /\
  forall m, bytes m -> Z.of_nat (length m) < 2 ^ 32 ->
  exists sm smlen, api_signed X p fuel sk m sm smlen /\
  forall junk m0, (length m <= length m0)%nat ->
    crypto_sign_open X p fuel junk m0 sm smlen pk = Ok (-1, m0, None).
Proof.
  intros p Hp. assert (T : exists n ind, In (p, n, ind) table /\ Z.of_nat n = max_seeds p).
  { destruct Hp as [<- |[<- |[]]]; do 2 eexists; (split; [cbn [In table]; eauto|reflexivity]). }
  destruct T as (n & ind & HT & En). destruct (table_row p n ind HT) as (wf & T1 & T2 & T3 & T4 & T5).
  destruct (table_run p n ind HT) as (R1 & R2 & R3 & R4).
  set (X := scriptX (hash_len p) (script p ind)). pose proof (scriptX_lawful (hash_len p) (script p ind)) as LX. fold X in LX.
  exists X. split; auto. exists 400%nat.
  destruct (script_keygen p wf ind R2 R3 toy_junk (repeat 0 (sizeof_sk p)) (repeat 0 (sizeof_pk p))) as (pk & EK & HK).
  { apply repeat_length. } { apply repeat_length. } { apply Forall_forall. intros x Hx. apply repeat_spec in Hx. subst. unfold is_byte. lia. }
  fold X in EK, HK. exists (repeat 0 (sizeof_sk p)), pk.
  assert (Lpk : length pk = sizeof_pk p) by (destruct HK as [(? & ? & ? & ? & ? & ? & ? & ? & ? & _)]; auto).
  assert (AK : api_keypair X p 400 (repeat 0 (sizeof_sk p)) pk).
  { exists toy_junk, (@None nat), (@None nat), 0, (repeat 0 (sizeof_sk p)), (repeat 0 (sizeof_pk p)).
    split. { apply repeat_length. } split. { apply repeat_length. }
    split. { apply Forall_forall. intros x Hx. apply repeat_spec in Hx. subst. unfold is_byte. lia. }
    unfold crypto_sign_keypair. rewrite !rd_ok by (rewrite repeat_length; lia). cbn [bind skipn].
    rewrite !firstn_repeat by lia. rewrite EK. cbn [bind].
    rewrite !wr_ok by (rewrite ?repeat_length; lia). cbn [bind firstn app Nat.add].
    rewrite !skipn_all2 by (rewrite ?repeat_length; lia). rewrite !app_nil_r. reflexivity. }
  split; auto. intros m HM HL.
  set (sm0 := repeat 0 (length m + sizeof_sign p)).
  assert (B0 : bytes sm0) by (apply Forall_forall; intros x Hx; apply repeat_spec in Hx; subst; unfold is_byte; lia).
  assert (L0 : length sm0 = (length m + sizeof_sign p)%nat) by apply repeat_length.
  assert (SB : Z.of_nat (sizeof_sign p) < 2 ^ 32) by (destruct Hp as [<- |[<- |[]]]; reflexivity).
  assert (L64 : Z.of_nat (length sm0) < 2 ^ 64) by lia.
  destruct (script_sign p wf ind R1 R2 R3 toy_junk sm0 m B0 HM) as (sm & smlen & sig & num & tree & c & fullG & acts & Vs & fl & rng' & E & HS & Es & El); try lia.
  fold X in E, HS. exists sm, smlen.
  pose proof (signed_table p n ind X 400 _ m sig num tree c fullG acts Vs fl HT HS) as ->.
  split. { exists toy_junk, (@None nat), rng', 0, sm0. split; auto. split; auto. split; [lia|]. auto. }
  intros junk m0 Hm0.
  pose proof (sg_len _ _ _ _ _ _ _ _ _ _ _ _ _ _ HS) as SL. pose proof (sg_maxb _ _ _ _ _ _ _ _ _ _ _ _ _ _ HS) as SMb.
  assert (FIT : (off_seeds p + n * seed_len p + 1 <= sizeof_sign p)%nat) by (unfold sizeof_sign, seed_storage_len; lia).
  assert (Lsm : length sm = (length m + sizeof_sign p)%nat).
  { rewrite Es, !app_length, SL, skipn_all2 by lia. cbn [length]. lia. }
  rewrite El. rewrite (open_sign X p wf LX 400 400 400 junk (repeat 0 (sizeof_sk p)) pk m sig n tree c fullG acts Vs ind fl (skipn (length m + sizeof_sign p) sm0) sm m0 _ HK HS (le_n _) eq_refl).
  - rewrite En, Z.eqb_refl. reflexivity.
  - rewrite Es. apply Forall_app. split; auto. apply Forall_app. split. { apply (sg_bytes _ _ _ _ _ _ _ _ _ _ _ _ _ _ HS). } apply Forall_skipn. auto.
  - lia.
  - lia.
  - rewrite Es. reflexivity.
  - auto.
Qed.

(** Keys from crypto_sign_keypair; the message signed with two seeds is returned, the one with four is refused. *)
Lemma toy_keypair_run :
  crypto_sign_keypair toyX toy_params 1000 toy_junk 5 (repeat 9 (sizeof_pk toy_params)) (repeat 9 (sizeof_sk toy_params)) = Ok (0, toy_pk, toy_sk, toy_rng5).
Proof.
  unfold crypto_sign_keypair.
  replace (rd (repeat 9 (sizeof_sk toy_params)) 0 (sizeof_sk toy_params)) with (Ok (repeat 9 (sizeof_sk toy_params))) by reflexivity. cbn [bind].
  replace (rd (repeat 9 (sizeof_pk toy_params)) 0 (sizeof_pk toy_params)) with (Ok (repeat 9 (sizeof_pk toy_params))) by reflexivity. cbn [bind].
  rewrite toy_keys_run. reflexivity.
Qed.
Lemma toy_api_keypair : api_keypair toyX toy_params 1000 toy_sk toy_pk.
Proof.
  exists toy_junk, 5, toy_rng5, 0, (repeat 9 (sizeof_sk toy_params)), (repeat 9 (sizeof_pk toy_params)).
  split; [apply repeat_length|]. split; [apply repeat_length|]. split; [apply repeat_bytes; unfold is_byte; lia|exact toy_keypair_run].
Qed.
Lemma toy_api_signed : api_signed toyX toy_params 1000 toy_sk toy_msg toy_sm80 112.
Proof.
  exists toy_junk, 80, toy_rng80, 0, (repeat 3 (3 + sizeof_sign toy_params)). split; [repeat constructor; unfold is_byte; lia|].
  split; [apply repeat_bytes; unfold is_byte; lia|]. split; [rewrite repeat_length; apply le_n|]. split; [rewrite repeat_length; vm_compute; reflexivity|exact toy_sm_run].
Qed.
Lemma toy_opens fv junk m0 sm : (1000 <= fv)%nat -> bytes sm -> Z.of_nat (length sm) < 2 ^ 64 -> (112 <= length sm)%nat -> firstn 112 sm = firstn 112 toy_sm80 ->
  (3 <= length m0)%nat -> crypto_sign_open toyX toy_params fv junk m0 sm 112 toy_pk = Ok (0, toy_msg ++ skipn 3 m0, Some 3).
Proof.
  intros H1 H2 H3 H4 H5 H6.
  rewrite (C02_open toyX toy_params toy_wf toyX_lawful 1000 toy_sk toy_pk toy_api_keypair 1000 toy_msg toy_sm80 112 toy_api_signed fv junk m0 sm H1 H2 H3 H4 H5 H6).
  reflexivity.
Qed.
Lemma toy_sm80_bytes n : bytes (firstn n toy_sm80).
Proof.
  apply Forall_firstn. apply Forall_forall. intros x Hx. assert (B : forallb (fun b => (0 <=? b) && (b <? 256)) toy_sm80 = true) by reflexivity.
  rewrite forallb_forall in B. specialize (B x Hx). unfold is_byte. lia.
Qed.
Lemma toy_open80 : crypto_sign_open toyX toy_params 1000 toy_junk [7; 7; 7; 7; 7] (firstn 112 toy_sm80) (Z.of_nat (length (firstn 112 toy_sm80))) toy_pk =
  Ok (0, [1; 2; 3; 7; 7], Some 3).
Proof.
  apply (toy_opens 1000 toy_junk [7; 7; 7; 7; 7] (firstn 112 toy_sm80)); [lia|apply toy_sm80_bytes|vm_compute; reflexivity|apply Nat.leb_le; reflexivity|reflexivity|cbn; lia].
Qed.
Example C02_example :
  crypto_sign_keypair toyX toy_params 1000 toy_junk 5 (repeat 9 (sizeof_pk toy_params)) (repeat 9 (sizeof_sk toy_params)) = Ok (0, toy_pk, toy_sk, toy_rng5) /\
  api_signed toyX toy_params 1000 toy_sk toy_msg toy_sm80 112 /\
  toy_open (firstn 112 toy_sm80) = Ok (0, [1; 2; 3; 7; 7], Some 3) /\ toy_open (firstn 144 toy_sm80b) = Ok (-1, [7; 7; 7; 7; 7], None) /\ max_seeds toy_params = 4.
Proof.
  split; [exact toy_keypair_run|]. split; [exact toy_api_signed|]. split.
  - exact toy_open80.
  - split; reflexivity.
Qed.

(** *** C04 *)

(** Under an honest public key opening is safe provided the announced number of seeds is consistent with
    the length, and at least the memory of a full signature follows the message.
    Missing: the code checks neither, so without these hypotheses it reads outside the buffer (see below). *)
Theorem C04_open_safe_partial : forall X p, wf_params p -> lawful X (hash_len p) ->
  forall fk sk pk, keypair X p fk sk pk ->
  forall fuel junk m0 sm smlen, bytes sm -> Z.of_nat (length sm) < 2 ^ 64 ->
  (1 <= smlen <= length sm)%nat -> (smlen <= length m0)%nat ->
  (forall c, nth (smlen - 1) sm 0 = Z.of_nat c -> Z.of_nat c < max_seeds p ->
     (off_seeds p + c * seed_len p + 1 <= smlen /\ smlen - (off_seeds p + c * seed_len p + 1) + (sizeof_sign p - 1) <= length sm)%nat) ->
  crypto_sign_open X p fuel junk m0 sm (Z.of_nat smlen) pk <> UB /\
  forall ret m1 mlen, crypto_sign_open X p fuel junk m0 sm (Z.of_nat smlen) pk = Ok (ret, m1, mlen) ->
    (ret = 0 \/ ret = -1) /\ length m1 = length m0.
Proof.
  intros X p wf LX fk sk pk HK fuel junk m0 sm smlen H1 H2 H3 H4 H5.
  apply (keypair_honest X p fk sk pk wf LX) in HK. apply honest_pk_wf in HK.
  pose proof (open_safe X p wf LX fuel junk pk m0 sm smlen HK H1 H2 H3 H4 H5) as W.
  destruct (crypto_sign_open X p fuel junk m0 sm (Z.of_nat smlen) pk) as [[[ret m1] mlen]| |]; cbn [wp] in W.
  - split; [discriminate|]. intros r a b E. injection E as <- <- <-. exact W.
  - destruct W.
  - split; discriminate.
Qed.

(** Every string shorter than the signature its last byte announces makes crypto_sign_open access memory out
    of bounds, with any public key; the one-byte string 0 is one. *)
Theorem C04_refuted : forall X p, wf_params p -> 0 < max_seeds p ->
  (forall fuel junk pk m0 sm c, (1 <= length sm)%nat -> Z.of_nat (length sm) < 2 ^ 62 ->
     nth (length sm - 1) sm 0 = Z.of_nat c -> Z.of_nat c < max_seeds p -> (length sm < off_seeds p + c * seed_len p + 1)%nat ->
     crypto_sign_open X p fuel junk m0 sm (Z.of_nat (length sm)) pk = UB) /\
  (forall fuel junk pk m0, crypto_sign_open X p fuel junk m0 [0] 1 pk = UB).
Proof.
  intros X p wf HM. split.
  - intros. apply open_short with (c := c); auto.
  - intros fuel junk pk m0. apply (open_short X p wf fuel junk pk m0 [0] 0); cbn [length nth]; try lia.
    { reflexivity. } unfold off_seeds, hash_len. pose proof (slen_ge p). lia.
Qed.

(** Also with a consistent length: a signature announcing no seed never gets a verdict, because every challenge
    leaves some round to be rebuilt from the published seeds. *)
Theorem C04_refuted_no_seed : forall X p, wf_params p -> lawful X (hash_len p) -> (pW p < pT p)%nat ->
  forall fuel junk pk m0 sm r, (off_seeds p + 1 <= length sm)%nat -> Z.of_nat (length sm) < 2 ^ 62 -> 0 < max_seeds p ->
    nth (length sm - 1) sm 0 = 0 ->
    crypto_sign_open X p fuel junk m0 sm (Z.of_nat (length sm)) pk <> Ok r.
Proof.
  intros X p wf LX WT fuel junk pk m0 sm r H1 H2 H3 H4 E. unfold crypto_sign_open in E. pose proof (wf_max_byte p wf).
  assert (LAST : u64 (Z.of_nat (length sm) - 1) = Z.of_nat (length sm - 1)) by (unfold u64; rewrite Z.mod_small; lia).
  rewrite LAST in E. destruct (Z.ltb_spec (Z.of_nat (length sm - 1)) (Z.of_nat (length sm))); [|lia].
  rewrite Nat2Z.id in E. rewrite (get_ok _ _ 0) in E by lia. cbn [bind] in E. rewrite H4 in E.
  destruct (Z.leb_spec (max_seeds p) 0); [lia|]. rewrite (sig_len_val p wf 0) in E by lia.
  assert (EM : u64 (Z.of_nat (length sm) - (Z.of_nat (off_seeds p) + 0 * Z.of_nat (seed_len p) + 1)) = Z.of_nat (length sm - (off_seeds p + 1))).
  { unfold u64. rewrite Z.mod_small; lia. }
  rewrite EM, Nat2Z.id in E.
  destruct ((_ <=? _) && (_ <=? _)); [|discriminate].
  apply bind_ok in E. destruct E as (d & _ & E). apply bind_ok in E. destruct E as (m1 & _ & E).
  apply bind_ok in E. destruct E as (v & E & _). revert E. apply few_seeds; auto. rewrite skipn_length. lia.
Qed.

(** The honest signed message in its buffer satisfies the hypotheses of the partial result; two strings on which
    the real behaviour is an access out of bounds. *)
Example C04_example :
  (let slack := (112 - (off_seeds toy_params + 2 * 16 + 1) + (sizeof_sign toy_params - 1))%nat in
   ((slack <=? length toy_sm80)%nat, nth 111 toy_sm80 0, off_seeds toy_params) = (true, 2, 76%nat)) /\
  crypto_sign_open toyX toy_params 1000 toy_junk (repeat 7 112) toy_sm80 112 toy_pk = Ok (0, toy_msg ++ repeat 7 109, Some 3) /\
  toy_open [0] = UB /\ toy_open (firstn 79 toy_sm80 ++ [0]) = UB.
Proof.
  split; [reflexivity|]. split.
  { apply (toy_opens 1000 toy_junk (repeat 7 112) toy_sm80); [lia|exact (toy_sm80_bytes 144)|vm_compute; reflexivity|apply Nat.leb_le; reflexivity|reflexivity|cbn; lia]. }
  split; vm_compute; reflexivity.
Qed.

(** *** C26 *)

(** Anyone can turn an accepted signed message into a longer one which opens to the same message: announce one
    more seed and insert arbitrary bytes for it. *)
Theorem C26_refuted : forall X p, wf_params p ->
  forall fuel junk pk m0 sm pad m1 mlen,
  bytes sm -> Z.of_nat (length sm) + 32 < 2 ^ 64 -> (1 <= length sm)%nat ->
  length pad = seed_len p -> nth (length sm - 1) sm 0 + 1 < max_seeds p ->
  crypto_sign_open X p fuel junk m0 sm (Z.of_nat (length sm)) pk = Ok (0, m1, Some mlen) ->
  exists sm', sm' = firstn (length sm - 1) sm ++ pad ++ [nth (length sm - 1) sm 0 + 1] /\ sm' <> sm /\
    crypto_sign_open X p fuel junk m0 sm' (Z.of_nat (length sm')) pk = Ok (0, m1, Some mlen).
Proof.
  intros X p wf fuel junk pk m0 sm pad m1 mlen H1 H2 H3 H4 H5 H6. exists (announce_more sm pad). split; [reflexivity|].
  split. { apply announce_more_neq; auto. rewrite H4. pose proof (slen_ge p). lia. }
  apply open_announce; auto.
Qed.

(** A second way, keeping the length: multiply the coefficients of one response by a constant. Nothing secret
    is used: the response is unpacked from the signature and packed again. *)
Theorem C26_refuted_scaling : forall X p, wf_params p -> lawful X (hash_len p) ->
  forall fk sk pk, keypair X p fk sk pk ->
  forall fs junk rng m sig0 sig num rng', length sig0 = sizeof_sign p -> bytes sig0 ->
  LESS_sign X p fs junk rng sk m sig0 = Ok (sig, num, rng') ->
  forall u a lam, (u < pW p)%nat -> 1 < lam < 127 -> unpacks_action p (slice sig (off_monom p u) (mono_bytes p)) a ->
  exists buf sig',
    compress_monom_action p (slice sig (off_monom p u) (mono_bytes p))
      {| a_perm := a_perm a; a_coef := map (fun c => (lam * c) mod 127) (a_coef a) |} = Ok buf /\
    wr sig (off_monom p u) buf = Ok sig' /\ sig' <> sig /\
    forall fv junk', (fs <= fv)%nat -> LESS_verify X p fv junk' pk m sig' = Ok 1.
Proof.
  intros X p wf LX fk sk pk HK fs junk rng m sig0 sig num rng' H1 H2 E u a lam Hu Hl HU.
  assert (Lsk : length sk = sizeof_sk p).
  { destruct HK as (j & g & g' & s0 & p0 & L1 & L2 & L3 & EK).
    pose proof (keygen_sk X p fk j g s0 p0 sk pk g' LX L1 EK) as S. pose proof (law_sq_len _ _ LX (prikey_seed_len p) g) as Q1.
    destruct (x_squeeze X (prikey_seed_len p) g) as [csk r1]. pose proof (law_sq_len _ _ LX (seed_len p) r1) as Q2.
    destruct (x_squeeze X (seed_len p) r1) as [g0 r2]. destruct S as [-> _]. rewrite app_length. cbn [fst] in *. unfold sizeof_sk. lia. }
  pose proof (keypair_honest X p fk sk pk wf LX HK) as HH.
  pose proof (LESS_sign_spec X p wf LX fs junk rng sk m sig0 Lsk H1 H2) as S. rewrite E in S. cbn [wp] in S.
  destruct S as (tree & c & fullG & acts & Vs & fws & fl & HS).
  pose proof (sg_len _ _ _ _ _ _ _ _ _ _ _ _ _ _ HS) as SL. pose proof (sg_bytes _ _ _ _ _ _ _ _ _ _ _ _ _ _ HS) as SB.
  assert (D : exists b, decodes p (sig_chunk p sig u) b /\ act_ok p b).
  { destruct (sg_fws _ _ _ _ _ _ _ _ _ _ _ _ _ _ HS) as (C1 & C2 & C3).
    rewrite weight_cnt, C1 in C2. destruct (cnt_nth_enum (nz fws) (pT p) u 0%nat) as (X1 & X2 & X3); [lia|].
    destruct (sg_resp _ _ _ _ _ _ _ _ _ _ _ _ _ _ HS _ X1 X2) as (Q0 & b0 & R1 & R2 & R3 & R4 & _). rewrite X3 in R4. eauto. }
  destruct D as (b & D1 & D2). pose proof (unpacks_decodes p _ _ a D1 HU) as ->.
  assert (LU : fq_unit lam) by (unfold fq_unit; lia).
  pose proof (off_monom_fit p u Hu) as FIT.
  assert (SS : sizeof_sign p = (off_seeds p + (Z.to_nat (p_maxbytes p) + 1))%nat) by reflexivity.
  assert (OD : (off_digest p + hash_len p = off_seeds p)%nat) by (unfold off_seeds, off_digest; lia).
  assert (Ls : length (sig_chunk p sig u) = mono_bytes p) by (unfold sig_chunk; rewrite firstn_length, skipn_length; lia).
  assert (Bs : bytes (sig_chunk p sig u)) by (apply Forall_firstn, Forall_skipn; auto).
  destruct (action_coding p wf _ _ Bs Ls (scale_ok p lam a LU D2)) as (buf & EC & _).
  exists buf.
  destruct (sign_verify_scaled X p wf LX fk fs fs junk sk pk m sig num tree c fullG acts Vs fws fl u a lam buf HH HS (le_n _) Hu LU D1 EC) as (sig' & W1 & W2 & _).
  exists sig'. split; [exact EC|]. split; auto. split. { apply W2. lia. }
  intros fv junk' Hf.
  destruct (sign_verify_scaled X p wf LX fk fs fv junk' sk pk m sig num tree c fullG acts Vs fws fl u a lam buf HH HS Hf Hu LU D1 EC) as (sig'' & V1 & V2 & V3).
  rewrite W1 in V1. injection V1 as <-. exact V3.
Qed.

Example C26_example :
  toy_open (firstn 111 toy_sm80 ++ repeat 200 16 ++ [3]) = Ok (0, [1; 2; 3; 7; 7], Some 3).
Proof.
  unfold toy_open. destruct (C26_refuted toyX toy_params toy_wf 1000 toy_junk toy_pk [7; 7; 7; 7; 7] (firstn 112 toy_sm80) (repeat 200 16) [1; 2; 3; 7; 7] 3) as (sm & -> & _ & E);
    [apply toy_sm80_bytes|vm_compute; reflexivity|apply Nat.leb_le; reflexivity|reflexivity|vm_compute; reflexivity|exact toy_open80|exact E].
Qed.

(** Response number 1 of the same signature, with coefficients 94, 105, 126 multiplied by 5. *)
Example C26_scaling_example :
  (let ab := slice toy_sig80 (off_monom toy_params 1) (mono_bytes toy_params) in
   a <- expand_to_monom_action toy_params ex_A0 ab ;;
   buf <- compress_monom_action toy_params ab {| a_perm := a_perm a; a_coef := map (fun c => (5 * c) mod 127) (a_coef a) |} ;;
   Ok (a_coef a, ab, buf)) =
  Ok ([94; 105; 126], [53; 124; 106; 222; 180; 31], [53; 124; 106; 217; 136; 30]) /\
  exists sig', wr toy_sig80 (off_monom toy_params 1) [53; 124; 106; 217; 136; 30] = Ok sig' /\ sig' <> toy_sig80 /\
    LESS_verify toyX toy_params 1000 toy_junk toy_pk toy_msg sig' = Ok 1.
Proof.
  split; [vm_compute; reflexivity|].
  assert (HB : bytes toy_sig80) by (exact (Forall_skipn _ _ 3 (toy_sm80_bytes 144))).
  destruct (C15_accepted toyX toy_params toy_wf toyX_lawful 1000 (fun _ _ => 0) toy_pk toy_msg toy_sig80) with (u := 1%nat) as (a & HU & _);
    [intros; unfold is_byte; lia|repeat constructor; unfold is_byte; lia|exact HB|apply toy_accepts; lia|apply Nat.ltb_lt; reflexivity|].
  assert (EA : a = {| a_perm := [53; 124; 106]; a_coef := [94; 105; 126] |}).
  { assert (M : act_array toy_params ex_A0) by (split; reflexivity). specialize (HU _ M). vm_compute in HU. injection HU as <-. reflexivity. }
  destruct (C26_refuted_scaling toyX toy_params toy_wf toyX_lawful 1000 toy_sk toy_pk toy_keypair 1000 toy_junk 80 toy_msg (repeat 3 (sizeof_sign toy_params)) toy_sig80 2 toy_rng80)
    with (u := 1%nat) (a := a) (lam := 5) as (buf & sig' & E1 & E2 & E3 & E4);
    [apply repeat_length|apply repeat_bytes; unfold is_byte; lia|exact toy_sign_run|apply Nat.ltb_lt; reflexivity|lia|exact HU|].
  rewrite EA in E1. vm_compute in E1. injection E1 as <-. exists sig'. split; [exact E2|]. split; [exact E3|]. apply E4. lia.
Qed.

(** *** C29 *)

(** The all-zero public key: its packed matrices announce no pivot column, so unpacking reads K*N entries from a
    field of K*(N-K). Whatever the signature and the primitives, verification never returns a verdict ... *)
Theorem C29_zero_key : forall X p, wf_params p -> (2 <= pK p)%nat ->
  forall fuel junk m sig r, LESS_verify X p fuel junk (repeat 0 (sizeof_pk p)) m sig <> Ok r.
Proof. intros. apply verify_zero_key; auto. Qed.

(** ... and for each of the seven parameter sets there are primitives and a signature for which the access out
    of bounds takes place, so the property does not hold of the code. *)
Theorem C29_refuted : forall p, In p less_params ->
  exists X, lawful X (hash_len p) /\ exists pk sig fuel, length pk = sizeof_pk p /\ bytes pk /\ length sig = sizeof_sign p /\ bytes sig /\
    forall junk m, LESS_verify X p fuel junk pk m sig = UB.
Proof.
  intros p Hp. rewrite <- table_params in Hp. apply in_map_iff in Hp. destruct Hp as ([[p' n] ind] & <- & HT). cbn [fst].
  assert (B : forall x k, is_byte x -> bytes (repeat x k)).
  { intros x k H. apply Forall_forall. intros y Hy. apply repeat_spec in Hy. subst. auto. }
  exists (scriptX (hash_len p') (script p' ind)). split. { apply scriptX_lawful. }
  exists (repeat 0 (sizeof_pk p')), (repeat 5 (sizeof_sign p')), 400%nat.
  split. { apply repeat_length. } split. { apply B. unfold is_byte. lia. }
  split. { apply repeat_length. } split. { apply B. unfold is_byte. lia. }
  intros junk m. apply (verify_zero_key_run p' n ind). auto.
Qed.

(** An honest signature checked against the all-zero key with the toy primitives. *)
Example C29_example : LESS_verify toyX toy_params 1000 toy_junk (repeat 0 (sizeof_pk toy_params)) toy_msg (skipn 3 toy_sm80) = UB.
Proof. vm_compute. reflexivity. Qed.

Print Assumptions C03_layout.
Print Assumptions C02_open.
Print Assumptions C02_five_sets.
Print Assumptions C02_refuted.
Print Assumptions C04_open_safe_partial.
Print Assumptions C04_refuted.
Print Assumptions C04_refuted_no_seed.
Print Assumptions C26_refuted.
Print Assumptions C26_refuted_scaling.
Print Assumptions C29_zero_key.
Print Assumptions C29_refuted.
