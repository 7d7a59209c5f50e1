(** C67: sessions whose calls are served by different implementations. *)
From Verif Require Import Base BaseLemmas Params ParamsProofs Prim Less Sign Vec OptCodes OptLess OptSim OptEquiv Session SessionOpt Spec LessSpec Fips202Inst
  SeedTreeProofs DetProofs RoundProofs VerifyProofs Toy ApiProofs PropScheme PropApi PropSpec PropDet PropOpt PropSession.

(** The paddings of the optimised libraries fit the parameter set. *)
Definition lib_ok (p : params) (l : library) : Prop := match l with None => True | Some (q, _) => wf_pads p q end.

(** Answers that a caller cannot tell apart: what follows the signed message in its buffer does not count. *)
Definition same_answer (a b : answer) : Prop :=
  match a, b with
  | Signed ret sm smlen, Signed ret' sm' smlen' => ret = ret' /\ smlen = smlen' /\ firstn (Z.to_nat smlen) sm = firstn (Z.to_nat smlen) sm'
  | _, _ => a = b
  end.

Section R.
Variable X : prim.
Variable p : params.
Hypothesis wf : wf_params p.
Hypothesis LX : lawful X (hash_len p).

(** A call of either library is a call of the reference that found other contents in its uninitialised memory. *)
Lemma mixed_call_eq fuel junk lib n rng keys c r : lib_ok p (lib n) -> keys_ok X p fuel keys -> allowed p (length keys) (c :: r) ->
  exists j, forall junk', junk' n = j -> mixed_call X p fuel junk lib n rng keys c = api_call X p fuel junk' n rng keys c.
Proof.
  intros HL HK HA. destruct (lib n) as [[q i]|] eqn:EL; [|exists (junk n); intros junk' EJ; destruct c; cbn [mixed_call api_call]; unfold keypair_by, sign_by, open_by; rewrite EL, EJ; reflexivity].
  cbn [lib_ok] in HL. destruct (C37_api X p q i wf LX HL) as (A1 & A2 & A3).
  assert (HG : forall k, (k < length keys)%nat -> exists pk sk, get keys k = Ok (pk, sk) /\ api_keypair X p fuel sk pk).
  { intros k Hk. destruct (nth_error keys k) as [[pk sk]|] eqn:EN; [|apply nth_error_None in EN; lia]. exists pk, sk. unfold get. rewrite EN. split; auto.
    apply (proj1 (Forall_forall _ _) HK (pk, sk)). eapply nth_error_In. eauto. }
  destruct c as [pk0 sk0|k sm0 m|k m0 sm smlen]; cbn [allowed] in HA.
  - destruct HA as (B1 & B2 & B3 & _). destruct (A1 fuel (junk n) rng pk0 sk0 B1 B2 B3) as (j & E).
    exists j. intros junk' EJ. cbn [mixed_call api_call]. unfold keypair_by. rewrite EL, EJ, E. reflexivity.
  - destruct HA as (B1 & B2 & B3 & B4 & B5 & _). destruct (HG k B1) as (pk & sk & EG & HP). destruct (api_honest X p fuel sk pk wf LX HP) as (_ & LS & _).
    destruct (A2 fuel (junk n) rng sm0 m sk LS B3 B2 B4 B5) as (j & E).
    exists j. intros junk' EJ. cbn [mixed_call api_call]. unfold sign_by. rewrite EL, EJ, EG. cbn [bind]. rewrite E. reflexivity.
  - destruct HA as (B1 & B2 & B3 & B4 & B5 & B6 & _). destruct (HG k B1) as (pk & sk & EG & HP). destruct (api_honest X p fuel sk pk wf LX HP) as (_ & _ & KP).
    destruct (A3 fuel sk pk KP fuel (junk n) m0 sm smlen B2 B3 B4 B5 B6) as (j & E).
    exists j. intros junk' EJ. cbn [mixed_call api_call]. unfold open_by. rewrite EL, EJ, EG. cbn [bind]. rewrite E. reflexivity.
Qed.

Lemma api_calls_ext fuel junk junk' cs : forall n rng keys, (forall m, (n <= m)%nat -> junk m = junk' m) ->
  api_calls X p fuel junk n rng keys cs = api_calls X p fuel junk' n rng keys cs.
Proof.
  induction cs as [|c cs IH]; intros n rng keys HJ; cbn [api_calls]; [reflexivity|].
  assert (E : api_call X p fuel junk n rng keys c = api_call X p fuel junk' n rng keys c) by (destruct c; cbn [api_call]; rewrite HJ by lia; reflexivity).
  rewrite E. destruct (api_call X p fuel junk' n rng keys c) as [[[a rng'] keys']| |]; cbn [bind]; [|reflexivity|reflexivity].
  rewrite (IH (S n)); [reflexivity|]. intros m Hm. apply HJ. lia.
Qed.

Lemma mixed_calls_eq fuel junk lib cs : (forall n, lib_ok p (lib n)) -> forall n rng keys, keys_ok X p fuel keys -> allowed p (length keys) cs ->
  exists junk', mixed_calls X p fuel junk lib n rng keys cs = api_calls X p fuel junk' n rng keys cs.
Proof.
  intros HL. induction cs as [|c cs IH]; intros n rng keys HK HA. { exists junk. reflexivity. }
  cbn [mixed_calls api_calls]. destruct (mixed_call_eq fuel junk lib n rng keys c cs (HL n) HK HA) as (j & E).
  set (J0 := fun m => if Nat.eqb m n then j else junk m).
  assert (J0n : J0 n = j) by (unfold J0; rewrite Nat.eqb_refl; reflexivity).
  destruct (call_step X p wf LX fuel J0 n rng keys c cs HK HA) as [_ S].
  rewrite (E J0 J0n). destruct (api_call X p fuel J0 n rng keys c) as [[[a rng'] keys']| |] eqn:EC.
  - destruct (S _ _ _ eq_refl) as (_ & _ & HK' & HA'). destruct (IH (Datatypes.S n) rng' keys' HK' HA') as (J & EJ).
    set (J1 := fun m => if Nat.eqb m n then j else J m). assert (J1n : J1 n = j) by (unfold J1; rewrite Nat.eqb_refl; reflexivity).
    exists J1. rewrite <- (E J1 J1n), (E J0 J0n), EC. cbn [bind]. rewrite EJ. rewrite (api_calls_ext fuel J J1); [reflexivity|].
    intros m Hm. unfold J1. destruct (Nat.eqb_spec m n); [lia|reflexivity].
  - exists J0. rewrite EC. reflexivity.
  - exists J0. rewrite EC. reflexivity.
Qed.

(** *** Two runs *)
Lemma open_det fuel fuel' junk junk' m0 sm smlen pk r r' : pk_wf p pk -> bytes sm -> Z.of_nat (length sm) < 2 ^ 64 ->
  (1 <= smlen <= length sm)%nat -> (smlen <= length m0)%nat ->
  (forall c, nth (smlen - 1) sm 0 = Z.of_nat c -> Z.of_nat c < max_seeds p ->
     (off_seeds p + c * seed_len p + 1 <= smlen /\ smlen - (off_seeds p + c * seed_len p + 1) + (sizeof_sign p - 1) <= length sm)%nat) ->
  crypto_sign_open X p fuel junk m0 sm (Z.of_nat smlen) pk = Ok r -> crypto_sign_open X p fuel' junk' m0 sm (Z.of_nat smlen) pk = Ok r' -> r = r'.
Proof.
  intros HP H1 H2 H3 H4 H5 E E'. unfold crypto_sign_open in E, E'.
  assert (EL : u64 (Z.of_nat smlen - 1) = Z.of_nat (smlen - 1)). { unfold u64. rewrite Z.mod_small; lia. }
  rewrite EL in E, E'. replace (Z.of_nat (smlen - 1) <? Z.of_nat (length sm)) with true in E, E' by lia.
  rewrite Nat2Z.id in E, E'. rewrite (get_ok sm (smlen - 1) 0) in E, E' by lia. cbn [bind] in E, E'.
  assert (HB : is_byte (nth (smlen - 1) sm 0)) by (apply (proj1 (Forall_forall _ _) H1), nth_In; lia).
  destruct (max_seeds p <=? nth (smlen - 1) sm 0) eqn:EM. { congruence. }
  set (num := nth (smlen - 1) sm 0) in *. unfold is_byte in HB.
  destruct (H5 (Z.to_nat num) ltac:(lia) ltac:(lia)) as [L1 L2].
  set (mlen := u64 (Z.of_nat smlen - less_crypto_bytes p num)) in *.
  destruct ((mlen <=? Z.of_nat (length sm)) && (mlen <=? Z.of_nat (length m0))); [|discriminate].
  destruct (rd sm 0 (Z.to_nat mlen)) as [d| |]; cbn [bind] in E, E'; try discriminate.
  destruct (wr m0 0 d) as [m1| |]; cbn [bind] in E, E'; try discriminate.
  apply bind_ok in E. destruct E as (o & E1 & E). apply bind_ok in E'. destruct E' as (o' & E1' & E'). injection E as <-. injection E' as <-.
  assert (o = o'); [|congruence]. revert E1 E1'. apply (verify_det X p wf LX); auto. { apply Forall_skipn. auto. }
  rewrite skipn_length. assert (EQ : mlen = Z.of_nat (smlen - (off_seeds p + Z.to_nat num * seed_len p + 1))).
  { unfold mlen. rewrite (sig_len_val p wf) by lia. unfold u64. rewrite Z.mod_small; nia. }
  rewrite EQ, Nat2Z.id. lia.
Qed.

Lemma call_det fuel fuel' junk junk' n rng keys c r a rng' keys' b rng'' keys'' : keys_ok X p fuel keys -> allowed p (length keys) (c :: r) ->
  api_call X p fuel junk n rng keys c = Ok (a, rng', keys') -> api_call X p fuel' junk' n rng keys c = Ok (b, rng'', keys'') ->
  same_answer a b /\ rng' = rng'' /\ keys' = keys''.
Proof.
  intros HK HA.
  assert (HG : forall k, (k < length keys)%nat -> exists pk sk, get keys k = Ok (pk, sk) /\ api_keypair X p fuel sk pk).
  { intros k Hk. destruct (nth_error keys k) as [[pk sk]|] eqn:EN; [|apply nth_error_None in EN; lia]. exists pk, sk. unfold get. rewrite EN. split; auto.
    apply (proj1 (Forall_forall _ _) HK (pk, sk)). eapply nth_error_In. eauto. }
  destruct c as [pk0 sk0|k sm0 m|k m0 sm smlen]; cbn [allowed api_call] in *.
  - destruct HA as (B1 & B2 & B3 & _). intros E E'.
    apply bind_ok in E. destruct E as ([[[ret pk] sk] g] & E & E1). injection E1 as <- <- <-.
    apply bind_ok in E'. destruct E' as ([[[ret' pk'] sk'] g'] & E' & E1). injection E1 as <- <- <-.
    destruct (honest_keypair X p _ _ _ _ ret sk0 pk0 sk pk wf LX B1 B2 B3 E) as (R1 & EK & _ & _).
    destruct (honest_keypair X p _ _ _ _ ret' sk0 pk0 sk' pk' wf LX B1 B2 B3 E') as (R2 & EK' & _ & _).
    assert (EQ : (sk, pk, g) = (sk', pk', g')).
    { destruct (Nat.le_ge_cases fuel fuel') as [F|F].
      - pose proof (proj2 (C30_keygen X p wf LX _ _ _ _ _ _ _ _ B1 B2 B3 EK) fuel' (junk' n) sk0 pk0 F B1 B2 B3). congruence.
      - pose proof (proj2 (C30_keygen X p wf LX _ _ _ _ _ _ _ _ B1 B2 B3 EK') fuel (junk n) sk0 pk0 F B1 B2 B3). congruence. }
    injection EQ as <- <- <-. cbn [same_answer]. repeat split; congruence.
  - destruct HA as (B1 & B2 & B3 & B4 & B5 & _). destruct (HG k B1) as (pk & sk & EG & HP). rewrite EG. cbn [bind].
    destruct (api_honest X p fuel sk pk wf LX HP) as (_ & LS & _). intros E E'.
    apply bind_ok in E. destruct E as ([[[ret s] l] g] & E & E1). injection E1 as <- <- <-.
    apply bind_ok in E'. destruct E' as ([[[ret' s'] l'] g'] & E' & E1). injection E1 as <- <- <-. cbn [same_answer].
    destruct (Nat.le_ge_cases fuel fuel') as [F|F].
    + destruct (C30_crypto_sign X p wf LX _ _ _ _ _ _ _ _ _ _ LS B3 B2 B4 B5 E fuel' (junk' n) sm0 F B3 B4) as (s2 & E2 & EF).
      rewrite E' in E2. injection E2 as -> -> -> ->. auto.
    + destruct (C30_crypto_sign X p wf LX _ _ _ _ _ _ _ _ _ _ LS B3 B2 B4 B5 E' fuel (junk n) sm0 F B3 B4) as (s2 & E2 & EF).
      rewrite E in E2. injection E2 as -> -> -> ->. auto.
  - destruct HA as (B1 & B2 & B3 & B4 & B5 & B6 & _). destruct (HG k B1) as (pk & sk & EG & HP). rewrite EG. cbn [bind].
    destruct (api_honest X p fuel sk pk wf LX HP) as (_ & _ & KP). intros E E'.
    apply bind_ok in E. destruct E as ([[ret s] l] & E & E1). injection E1 as <- <- <-.
    apply bind_ok in E'. destruct E' as ([[ret' s'] l'] & E' & E1). injection E1 as <- <- <-. cbn [same_answer].
    assert (EQ : (ret, s, l) = (ret', s', l')).
    { apply (open_det fuel fuel' (junk n) (junk' n) m0 sm smlen pk); auto. eapply keypair_pk_wf; eauto. }
    injection EQ as <- <- <-. auto.
Qed.

Lemma calls_det fuel fuel' junk junk' cs : forall n rng keys l l', keys_ok X p fuel keys -> allowed p (length keys) cs ->
  api_calls X p fuel junk n rng keys cs = Ok l -> api_calls X p fuel' junk' n rng keys cs = Ok l' -> Forall2 same_answer l l'.
Proof.
  induction cs as [|c cs IH]; intros n rng keys l l' HK HA E E'; cbn [api_calls] in *.
  - injection E as <-. injection E' as <-. constructor.
  - apply bind_ok in E. destruct E as ([[a g] ks] & E1 & E). apply bind_ok in E. destruct E as (t & E2 & E). injection E as <-.
    apply bind_ok in E'. destruct E' as ([[a' g'] ks'] & E1' & E'). apply bind_ok in E'. destruct E' as (t' & E2' & E'). injection E' as <-.
    destruct (call_det fuel fuel' junk junk' n rng keys c cs _ _ _ _ _ _ HK HA E1 E1') as (SA & <- & <-).
    destruct (call_step X p wf LX fuel junk n rng keys c cs HK HA) as [_ S]. destruct (S _ _ _ E1) as (_ & _ & HK' & HA').
    constructor; [exact SA|]. exact (IH _ _ _ _ _ HK' HA' E2 E2').
Qed.
End R.

(** *** C67 *)

(** Whichever library serves each call, no call leaves its buffers and every call is answered. *)
Theorem C67_safe : forall X p, wf_params p -> lawful X (hash_len p) ->
  forall fuel junk lib seed cs, (forall n, lib_ok p (lib n)) -> allowed p 0 cs ->
  mixed_session X p fuel junk lib seed cs <> UB /\ forall l, mixed_session X p fuel junk lib seed cs = Ok l -> length l = length cs.
Proof.
  intros X p wf LX fuel junk lib seed cs HL HA. unfold mixed_session.
  destruct (mixed_calls_eq X p wf LX fuel junk lib cs HL 0 (x_init X seed) [] ltac:(constructor) HA) as (J & ->).
  apply (C65_safe X p wf LX fuel J seed cs HA).
Qed.

(** The answers do not depend on which library served which call, nor on the contents of uninitialised memory. *)
Theorem C67_same : forall X p, wf_params p -> lawful X (hash_len p) ->
  forall fuel junk lib fuel' junk' lib' seed cs l l', (forall n, lib_ok p (lib n)) -> (forall n, lib_ok p (lib' n)) -> allowed p 0 cs ->
  mixed_session X p fuel junk lib seed cs = Ok l -> mixed_session X p fuel' junk' lib' seed cs = Ok l' -> Forall2 same_answer l l'.
Proof.
  intros X p wf LX fuel junk lib fuel' junk' lib' seed cs l l' HL HL' HA. unfold mixed_session.
  destruct (mixed_calls_eq X p wf LX fuel junk lib cs HL 0 (x_init X seed) [] ltac:(constructor) HA) as (J & ->).
  destruct (mixed_calls_eq X p wf LX fuel' junk' lib' cs HL' 0 (x_init X seed) [] ltac:(constructor) HA) as (J' & ->).
  apply (calls_det X p wf LX); auto. constructor.
Qed.

(** A session with the reference alone ([Session.v]) is one of them. *)
Theorem C67_reference : forall X p fuel junk seed cs, mixed_session X p fuel junk (fun _ => None) seed cs = session X p fuel junk seed cs.
Proof. reflexivity. Qed.

(** What one library signed, another opens. *)
Theorem C67_opens : forall X p, wf_params p -> lawful X (hash_len p) ->
  forall fuel junk lib seed cs l, (forall n, lib_ok p (lib n)) -> allowed p 0 cs -> mixed_session X p fuel junk lib seed cs = Ok l ->
  forall i k sm0 m ret sm smlen, nth_error cs i = Some (Sign k sm0 m) -> nth_error l i = Some (Signed ret sm (Z.of_nat smlen)) ->
  forall j m0 sm', nth_error cs j = Some (Open k m0 sm' smlen) -> firstn smlen sm' = firstn smlen sm ->
  nth_error l j = Some
    (if nth (smlen - 1) sm 0 =? max_seeds p then Opened (-1) m0 None
     else Opened 0 (m ++ skipn (length m) m0) (Some (Z.of_nat (length m)))).
Proof.
  intros X p wf LX fuel junk lib seed cs l HL HA. unfold mixed_session.
  destruct (mixed_calls_eq X p wf LX fuel junk lib cs HL 0 (x_init X seed) [] ltac:(constructor) HA) as (J & ->).
  intros E. exact (C65_opens X p wf LX fuel J seed cs l HA E).
Qed.

(** The seven parameter sets with the paddings of parameters.h: the libraries that can be built. *)
Theorem C67_less : forall p, In p less_params -> forall o : option isa,
  lib_ok p (match o with None => None | Some i => Some (less_pads (p_cat p), i) end) /\ wf_params p /\ lawful (lessX p) (hash_len p).
Proof.
  intros p Hp o. pose proof less_params_wf as W. pose proof less_pads_wf as V. rewrite Forall_forall in W, V.
  split; [destruct o; cbn [lib_ok]; auto|]. split; auto. apply lessX_lawful.
Qed.

(** The session of [C65_example] with the key made by the library for AVX2, the signature by the reference and the opening by the
    library for NEON with other paddings: the same answers as with the reference alone. *)
Definition mixed_libs (n : nat) : library := match n with 0%nat => Some (toy_pads, AVX2) | 1%nat => None | _ => Some (toy_pads2, NEON) end.
Definition mixed_junk (n a b : nat) : Z := match n with 1%nat => toy_junk a b | _ => Z.of_nat (3 * a + b) end.

Lemma keypair_run X p fuel J rng pk0 sk0 pk sk rng' : length sk0 = sizeof_sk p -> length pk0 = sizeof_pk p -> length sk = sizeof_sk p -> length pk = sizeof_pk p ->
  LESS_keygen X p fuel J rng sk0 pk0 = Ok (sk, pk, rng') -> crypto_sign_keypair X p fuel J rng pk0 sk0 = Ok (0, pk, sk, rng').
Proof.
  intros H1 H2 H3 H4 E. unfold crypto_sign_keypair. rewrite !rd_ok by lia. cbn [bind skipn]. rewrite !firstn_all2, E by lia. cbn [bind].
  rewrite !wr_ok by lia. cbn [bind firstn app Nat.add]. rewrite !skipn_all2, !app_nil_r by lia. reflexivity.
Qed.

Lemma toy_keypair_any J :
  crypto_sign_keypair toyX toy_params 1000 J 5 (repeat 9 (sizeof_pk toy_params)) (repeat 9 (sizeof_sk toy_params)) = Ok (0, toy_pk, toy_sk, toy_rng5).
Proof.
  assert (B9 : bytes (repeat 9 (sizeof_pk toy_params))) by (apply repeat_bytes; unfold is_byte; lia).
  destruct (C30_keygen toyX toy_params toy_wf toyX_lawful 1000 toy_junk 5 _ _ _ _ _ (repeat_length _ _) (repeat_length _ _) B9 toy_keys_run) as [_ D].
  specialize (D 1000%nat J (repeat 9 (sizeof_sk toy_params)) _ (le_n _) (repeat_length _ _) (repeat_length _ _) B9).
  apply keypair_run; [apply repeat_length|apply repeat_length|reflexivity|reflexivity|exact D].
Qed.

Lemma session_open J : bytes session_sm ->
  crypto_sign_open toyX toy_params 1000 J (repeat 7 150) session_sm (Z.of_nat 128) toy_pk = Ok (0, session_msg ++ repeat 7 147, Some 3).
Proof.
  intros BS.
  assert (B : bytes session_msg) by (repeat constructor; unfold is_byte; lia).
  assert (B3 : bytes (repeat 3 (3 + sizeof_sign toy_params))) by (apply repeat_bytes; unfold is_byte; lia).
  assert (L3 : (length session_msg + sizeof_sign toy_params <= length (repeat 3 (3 + sizeof_sign toy_params)))%nat) by (rewrite repeat_length; apply le_n).
  assert (Z3 : Z.of_nat (length (repeat 3 (3 + sizeof_sign toy_params))) < 2 ^ 64) by (rewrite repeat_length; vm_compute; reflexivity).
  assert (SG : api_signed toyX toy_params 1000 toy_sk session_msg session_sm (Z.of_nat 128)).
  { do 5 eexists. split; [exact B|]. split; [exact B3|]. split; [exact L3|]. split; [exact Z3|exact session_sign]. }
  refine (eq_trans (C02_open toyX toy_params toy_wf toyX_lawful 1000 toy_sk toy_pk toy_api_keypair 1000 session_msg session_sm (Z.of_nat 128) SG 1000 J (repeat 7 150) session_sm
     (le_n _) BS _ _ eq_refl _) _).
  - vm_compute. reflexivity.
  - apply Nat.leb_le. vm_compute. reflexivity.
  - apply Nat.leb_le. vm_compute. reflexivity.
  - reflexivity.
Qed.

Example C67_example :
  allowed toy_params 0 session_calls /\ (forall n, lib_ok toy_params (mixed_libs n)) /\
  mixed_session toyX toy_params 1000 mixed_junk mixed_libs [0; 8; 228] session_calls =
    Ok [Keys 0 toy_pk toy_sk; Signed 0 session_sm 128; Opened 0 (session_msg ++ repeat 7 147) (Some 3)] /\
  ~ same_answer (Signed 0 session_sm 128) (Signed 0 session_sm 127) /\ same_answer (Signed 0 session_sm 128) (Signed 0 (firstn 128 session_sm) 128).
Proof.
  assert (W2 : wf_pads toy_params toy_pads2) by (unfold wf_pads; cbn; lia).
  assert (B9 : bytes (repeat 9 (sizeof_pk toy_params))) by (apply repeat_bytes; unfold is_byte; lia).
  pose proof (proj1 C65_example) as HA. split; [exact HA|].
  split. { intros [|[|n]]; cbn [mixed_libs lib_ok]; [exact toy_pads_wf|exact I|exact W2]. }
  split; [|split; [intros (_ & H & _); discriminate|split; [reflexivity|split; reflexivity]]].
  unfold session_calls in HA. cbn [allowed] in HA. destruct HA as (_ & _ & _ & _ & _ & _ & _ & _ & H0 & H1 & H2 & H3 & H4 & H5 & _).
  unfold mixed_session, session_calls. cbn [mixed_calls mixed_call]. replace (x_init toyX [0; 8; 228]) with 5 by reflexivity.
  unfold keypair_by at 1. cbn [mixed_libs].
  destruct (proj1 (C37_api toyX toy_params toy_pads AVX2 toy_wf toyX_lawful toy_pads_wf) 1000%nat (mixed_junk 0) 5 (repeat 9 (sizeof_pk toy_params)) (repeat 9 (sizeof_sk toy_params))
              (repeat_length _ _) (repeat_length _ _) B9) as (J & EJ).
  rewrite EJ, toy_keypair_any. cbn [bind app get nth_error].
  unfold sign_by at 1. cbn [mixed_libs].
  change (mixed_junk 1) with toy_junk. rewrite session_sign. cbn [bind get nth_error].
  unfold open_by. cbn [mixed_libs].
  destruct (api_honest toyX toy_params 1000 toy_sk toy_pk toy_wf toyX_lawful toy_api_keypair) as (_ & _ & KP).
  destruct (proj2 (proj2 (C37_api toyX toy_params toy_pads2 NEON toy_wf toyX_lawful W2)) 1000%nat toy_sk toy_pk KP 1000%nat (mixed_junk 2) _ _ _ H1 H2 H3 H4 H5) as (J2 & EJ2).
  rewrite EJ2, (session_open J2 H1). reflexivity.
Qed.

Print Assumptions C67_safe.
Print Assumptions C67_same.
Print Assumptions C67_reference.
Print Assumptions C67_opens.
Print Assumptions C67_less.
