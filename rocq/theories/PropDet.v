(** Property C30: outputs do not depend on what buffers and uninitialised variables held. *)
From Verif Require Import Base BaseLemmas Params ParamsProofs Fq Prim Samplers Monomial Codes SeedTree Utils Less Sign Spec
  RoundProofs VerifyProofs SignerProofs ApiProofs DetProofs Toy PropScheme PropApi.

(** Once LESS_keygen succeeds with some contents of uninitialised memory and of the output buffers, it succeeds with
    all others, with the same keys; it draws 2 SEED_LENGTH_BYTES (the private seed) and then SEED_LENGTH_BYTES. *)
Theorem C30_keygen : forall X p, wf_params p -> lawful X (hash_len p) ->
  forall fuel junk rng sk0 pk0 sk pk rng',
  length sk0 = sizeof_sk p -> length pk0 = sizeof_pk p -> bytes pk0 ->
  LESS_keygen X p fuel junk rng sk0 pk0 = Ok (sk, pk, rng') ->
  rng' = snd (x_squeeze X (seed_len p) (snd (x_squeeze X (2 * seed_len p) rng))) /\
  forall fuel' junk' sk0' pk0', (fuel <= fuel')%nat ->
    length sk0' = sizeof_sk p -> length pk0' = sizeof_pk p -> bytes pk0' ->
    LESS_keygen X p fuel' junk' rng sk0' pk0' = Ok (sk, pk, rng').
Proof. intros X p wf LX fuel junk rng sk0 pk0 sk pk rng'. apply (keygen_det X p wf LX). Qed.

Example C30_keygen_example :
  LESS_keygen toyX toy_params 1000 toy_junk 5 (repeat 9 (sizeof_sk toy_params)) (repeat 9 (sizeof_pk toy_params)) =
  LESS_keygen toyX toy_params 1001 (fun _ _ => 255) 5 (repeat 0 (sizeof_sk toy_params)) (repeat 1 (sizeof_pk toy_params)) /\
  firstn 6 toy_pk <> repeat 1 6.
Proof.
  split; [|vm_compute; discriminate].
  destruct (C30_keygen toyX toy_params toy_wf toyX_lawful 1000 toy_junk 5 (repeat 9 (sizeof_sk toy_params)) (repeat 9 (sizeof_pk toy_params)) toy_sk toy_pk toy_rng5) as [_ H];
    [apply repeat_length|apply repeat_length|apply repeat_bytes; unfold is_byte; lia|exact toy_keys_run|].
  rewrite toy_keys_run. symmetry. apply H; [lia|apply repeat_length|apply repeat_length|apply repeat_bytes; unfold is_byte; lia].
Qed.

(** Likewise for LESS_sign, which draws SEED_LENGTH_BYTES and then HASH_DIGEST_LENGTH bytes. The signatures agree in
    their first [off_seeds + num * seed_len + 1] bytes, those that are sent, and in all other bytes but the last one,
    which LESS_sign leaves as it was when fewer than MAX_PUBLISHED_SEEDS seeds are published. *)
Theorem C30_sign : forall X p, wf_params p -> lawful X (hash_len p) ->
  forall fuel junk rng sk m sig0 sig num rng',
  length sk = sizeof_sk p -> length sig0 = sizeof_sign p -> bytes sig0 ->
  LESS_sign X p fuel junk rng sk m sig0 = Ok (sig, num, rng') ->
  rng' = snd (x_squeeze X (hash_len p) (snd (x_squeeze X (seed_len p) rng))) /\
  forall fuel' junk' sig0', (fuel <= fuel')%nat -> length sig0' = sizeof_sign p -> bytes sig0' ->
    exists sig', LESS_sign X p fuel' junk' rng sk m sig0' = Ok (sig', num, rng') /\
      firstn (off_seeds p + num * seed_len p + 1) sig' = firstn (off_seeds p + num * seed_len p + 1) sig /\
      firstn (sizeof_sign p - 1) sig' = firstn (sizeof_sign p - 1) sig.
Proof.
  intros X p wf LX fuel junk rng sk m sig0 sig num rng' H1 H2 H3 E.
  destruct (sign_det X p wf LX fuel junk rng sk m sig0 sig num rng' H1 H2 H3 E) as [R D]. split; auto.
  intros fuel' junk' sig0' Hf H2' H3'. destruct (D fuel' junk' sig0' Hf H2' H3') as (sig' & E' & L & S).
  exists sig'. split; auto. unfold same_signature in S.
  split; apply (list_ext 0); rewrite !firstn_length; try lia; intros i Hi; rewrite !nth_firstn by lia; symmetry; apply S.
  - right. lia.
  - left. unfold sizeof_sign, seed_storage_len in Hi. lia.
Qed.

(** With generator state 80 two seeds are published, and the last byte is that of the buffer. *)
Example C30_sign_example :
  LESS_sign toyX toy_params 1000 toy_junk 80 toy_sk toy_msg (repeat 3 (sizeof_sign toy_params)) = Ok (toy_sig80, 2%nat, toy_rng80) /\
  last toy_sig80 0 = 3 /\
  exists sig', LESS_sign toyX toy_params 1007 (fun _ _ => 200) 80 toy_sk toy_msg (repeat 99 (sizeof_sign toy_params)) = Ok (sig', 2%nat, toy_rng80) /\
    firstn 140 sig' = firstn 140 toy_sig80.
Proof.
  split; [exact toy_sign_run|]. split; [reflexivity|].
  destruct (C30_sign toyX toy_params toy_wf toyX_lawful 1000 toy_junk 80 toy_sk toy_msg (repeat 3 (sizeof_sign toy_params)) toy_sig80 2 toy_rng80) as [_ H];
    [reflexivity|apply repeat_length|apply repeat_bytes; unfold is_byte; lia|exact toy_sign_run|].
  destruct (H 1007%nat (fun _ _ => 200) (repeat 99 (sizeof_sign toy_params))) as (sig' & E & _ & P);
    [lia|apply repeat_length|apply repeat_bytes; unfold is_byte; lia|]. exists sig'. split; [exact E|exact P].
Qed.

(** The bytes of the signed message returned by crypto_sign, and its length, are determined. *)
Theorem C30_crypto_sign : forall X p, wf_params p -> lawful X (hash_len p) ->
  forall fuel junk rng sm0 m sk ret sm smlen rng', length sk = sizeof_sk p -> bytes sm0 -> bytes m ->
  (length m + sizeof_sign p <= length sm0)%nat -> Z.of_nat (length sm0) < 2 ^ 64 ->
  crypto_sign X p fuel junk rng sm0 m sk = Ok (ret, sm, smlen, rng') ->
  forall fuel' junk' sm0', (fuel <= fuel')%nat -> bytes sm0' -> (length m + sizeof_sign p <= length sm0')%nat ->
    exists sm', crypto_sign X p fuel' junk' rng sm0' m sk = Ok (ret, sm', smlen, rng') /\
      firstn (Z.to_nat smlen) sm' = firstn (Z.to_nat smlen) sm.
Proof.
  intros X p wf LX fuel junk rng sm0 m sk ret sm smlen rng' H1 H2 H3 H4 H5 E fuel' junk' sm0' Hf H2' H4'.
  assert (G : forall sm0 : list Z, bytes sm0 -> (length m + sizeof_sign p <= length sm0)%nat ->
    length (firstn (sizeof_sign p) (skipn (length m) (m ++ skipn (length m) sm0))) = sizeof_sign p /\
    bytes (firstn (sizeof_sign p) (skipn (length m) (m ++ skipn (length m) sm0)))).
  { intros s B L. split.
    - rewrite firstn_length, skipn_length, app_length, skipn_length. lia.
    - apply Forall_firstn, Forall_skipn, Forall_app. split; auto. apply Forall_skipn. auto. }
  destruct (G sm0 H2 H4) as [G1 G2]. destruct (G sm0' H2' H4') as [G1' G2']. clear G.
  unfold crypto_sign in *. rewrite wr_ok in * by lia. cbn [bind firstn app Nat.add] in *.
  rewrite rd_ok in * by (rewrite app_length, skipn_length; lia). cbn [bind] in *.
  set (g0 := firstn (sizeof_sign p) (skipn (length m) (m ++ skipn (length m) sm0))) in *.
  set (g0' := firstn (sizeof_sign p) (skipn (length m) (m ++ skipn (length m) sm0'))) in *.
  destruct (LESS_sign X p fuel junk rng sk m g0) as [[[sig num] r]| |] eqn:ES; cbn [bind] in E; try discriminate.
  destruct (C30_sign X p wf LX fuel junk rng sk m g0 sig num r H1 G1 G2 ES) as [_ D].
  destruct (D fuel' junk' g0' Hf G1' G2') as (sig' & ES' & P & _). rewrite ES'. cbn [bind].
  pose proof (LESS_sign_spec X p wf LX fuel junk rng sk m g0 H1 G1 G2) as S. rewrite ES in S. cbn [wp] in S.
  destruct S as (tree & c & fullG & acts & Vs & fws & fl & HS).
  pose proof (LESS_sign_spec X p wf LX fuel' junk' rng sk m g0' H1 G1' G2') as S. rewrite ES' in S. cbn [wp] in S.
  destruct S as (tree' & c' & fullG' & acts' & Vs' & fws' & fl' & HS').
  pose proof (sg_len _ _ _ _ _ _ _ _ _ _ _ _ _ _ HS) as L. pose proof (sg_len _ _ _ _ _ _ _ _ _ _ _ _ _ _ HS') as L'.
  pose proof (sg_max _ _ _ _ _ _ _ _ _ _ _ _ _ _ HS) as SM. pose proof (sg_maxb _ _ _ _ _ _ _ _ _ _ _ _ _ _ HS) as SMb.
  rewrite wr_ok in * by (rewrite app_length, skipn_length; lia). cbn [bind] in *.
  injection E as <- <- <- <-. eexists. split; [reflexivity|].
  pose proof (wf_max_byte p wf). unfold u32 at 1 2. rewrite Z.mod_small by lia. rewrite (sig_len_val p wf) by lia.
  assert (FIT : (off_seeds p + num * seed_len p + 1 <= sizeof_sign p)%nat) by (unfold sizeof_sign, seed_storage_len; lia).
  unfold u64. rewrite Z.mod_small by lia.
  replace (Z.to_nat _) with (length m + (off_seeds p + num * seed_len p + 1))%nat by lia.
  assert (GG : forall (rest sg tl : list Z), length sg = sizeof_sign p ->
    firstn (length m + (off_seeds p + num * seed_len p + 1)) (firstn (length m) (m ++ rest) ++ sg ++ tl) =
    m ++ firstn (off_seeds p + num * seed_len p + 1) sg).
  { intros rest sg tl HL. rewrite (firstn_app (length m) m rest), firstn_all, Nat.sub_diag. cbn [firstn]. rewrite app_nil_r.
    rewrite firstn_app_2. f_equal. rewrite firstn_app. replace (_ - length sg)%nat with 0%nat by lia. cbn [firstn]. apply app_nil_r. }
  rewrite !GG by auto. rewrite P. auto.
Qed.

(** Verification with an honest public key: the answer does not depend on uninitialised memory. *)
Theorem C30_verify : forall X p, wf_params p -> lawful X (hash_len p) ->
  forall fk sk pk, keypair X p fk sk pk ->
  forall fuel fuel' junk junk' m sig r r', bytes sig -> length sig = sizeof_sign p ->
  LESS_verify X p fuel junk pk m sig = Ok r -> LESS_verify X p fuel' junk' pk m sig = Ok r' -> r = r'.
Proof.
  intros X p wf LX fk sk pk HK fuel fuel' junk junk' m sig r r' HB HL. apply (verify_det X p wf LX); auto; [|lia].
  destruct HK as (ju & rng & rng' & sk0 & pk0 & H1 & H2 & H3 & E).
  pose proof (LESS_keygen_spec X p wf LX fk ju rng sk0 pk0 H1 H2 H3) as S. rewrite E in S. cbn [wp] in S.
  eapply honest_pk_wf; eauto.
Qed.

Example C30_verify_example :
  LESS_verify toyX toy_params 1000 (fun _ _ => 0) toy_pk toy_msg toy_sig80 =
  LESS_verify toyX toy_params 1100 (fun i _ => Z.of_nat i) toy_pk toy_msg toy_sig80.
Proof. rewrite !toy_accepts by lia. reflexivity. Qed.

Print Assumptions C30_keygen.
Print Assumptions C30_sign.
Print Assumptions C30_crypto_sign.
Print Assumptions C30_verify.
