(** Properties C38 to C43: the code computes what the specification of LessSpec.v says. *)
From Verif Require Import Base BaseLemmas Params ParamsProofs Prim Samplers Monomial Codes Utils Less Sign Spec Vec
  EnumProofs CodecProofs BitCodec LayoutProofs RrefCodec MonoProofs SamplerProofs RoundProofs VerifyProofs SignerProofs ApiProofs Toy PropScheme PropApi DetProofs OptLess OptSim OptEquiv PropOpt
  LessSpec SpecSampling SpecBridge SpecMain SpecVerify.

Lemma bytes_of_check l : forallb (fun x => (0 <=? x) && (x <? 256)) l = true -> bytes l.
Proof. intros B. apply Forall_forall. intros x Hx. rewrite forallb_forall in B. specialize (B x Hx). unfold is_byte. lia. Qed.

(** *** C38: expansion of seeds and digests *)

(** The expansion of a monomial matrix, of the generator G_0 and of the challenge are the functions of the
    specification: a run that ends has computed their value, and when they have a value enough fuel finds it,
    whatever the destination held. *)
Theorem C38_monomial : forall X p, wf_params p -> lawful X (hash_len p) ->
  forall input perm coef,
  (forall fuel r, mono_mem p r -> monomial_expand X p fuel r input = Ok {| m_coef := coef; m_perm := perm |} -> monomial_of X p input perm coef) /\
  (monomial_of X p input perm coef -> exists f, forall fuel r, (f <= fuel)%nat -> mono_mem p r ->
     monomial_expand X p fuel r input = Ok {| m_coef := coef; m_perm := perm |}).
Proof.
  intros X p wf LX input perm coef. split.
  - intros fuel r Hr E. exact (expand_monomial_of X p wf LX fuel r input _ Hr E).
  - intros M. destruct (monomial_of_expand X p wf LX _ _ _ M) as (f & _ & S). exists f. auto.
Qed.

Theorem C38_generator : forall X p, wf_params p -> lawful X (hash_len p) ->
  forall seed,
  (forall fuel r full c M, rref_mem p r -> shape (pK p) (pN p) full -> generator_SF_seed_expand X p fuel r seed = Ok c ->
     generator_rref_expand p full c = Ok M -> generator_of X p seed (ent M)) /\
  (forall G, generator_of X p seed G -> exists f c M, (forall i j, (i < pK p)%nat -> (j < pN p)%nat -> ent M i j = G i j) /\
     forall fuel r full, (f <= fuel)%nat -> rref_mem p r -> shape (pK p) (pN p) full ->
       generator_SF_seed_expand X p fuel r seed = Ok c /\ generator_rref_expand p full c = Ok M).
Proof.
  intros X p wf LX seed. split.
  - intros fuel r full c M Hr Hf E1 E2. pose proof (generator_sampled X p wf fuel r seed Hr) as W. rewrite E1 in W. cbn [wp] in W.
    destruct W as (_ & M' & SG). pose proof SG as (_ & S2 & _). rewrite S2 in E2 by auto. injection E2 as <-.
    apply (sampledG_generator_of X p wf LX fuel seed c M'). exact SG.
  - intros G HG. destruct (generator_of_sampledG X p wf LX seed G HG) as (f & c & M & (S1 & S2 & _) & E). exists f, c, M. split; auto.
Qed.

Theorem C38_challenge : forall X p, wf_params p ->
  forall digest chal,
  (forall fuel, expand_digest_to_fixed_weight X p fuel (repeat 0 (pT p)) digest = Ok chal -> challenge_of X p digest chal) /\
  (challenge_of X p digest chal -> exists f, forall fuel, (f <= fuel)%nat ->
     expand_digest_to_fixed_weight X p fuel (repeat 0 (pT p)) digest = Ok chal).
Proof.
  intros X p wf digest chal. split.
  - intros fuel. apply expand_challenge_of. auto.
  - apply challenge_of_expand. auto.
Qed.

(** Values of the three: the monomial expanded from two bytes, the shape of a generator, and the challenge of a
    signature (two of the toy rounds are challenged). *)
Definition toy_mono : monomial := Eval vm_compute in
  okd {| m_coef := []; m_perm := [] |} (monomial_expand toyX toy_params 1000 (junk_monomial toy_params toy_junk 0) [1; 2]).
Definition toy_chal : list Z := Eval vm_compute in
  okd [] (expand_digest_to_fixed_weight toyX toy_params 1000 (repeat 0 (pT toy_params)) (bytes_at toy_sig80 (off_digest toy_params) 32)).
Example C38_example :
  monomial_of toyX toy_params [1; 2] (m_perm toy_mono) (m_coef toy_mono) /\
  challenge_of toyX toy_params (bytes_at toy_sig80 (off_digest toy_params) 32) toy_chal /\
  (exists G, generator_of toyX toy_params [5; 6] G) /\
  weight toy_chal = 2%nat /\ firstn 4 (m_perm toy_mono) <> firstn 4 (map Z.of_nat (seq 0 (pN toy_params))).
Proof.
  split; [|split; [|split; [|split]]].
  - apply (proj1 (C38_monomial toyX toy_params toy_wf toyX_lawful [1; 2] (m_perm toy_mono) (m_coef toy_mono)) 1000%nat
      (junk_monomial toy_params toy_junk 0)).
    + apply junk_monomial_mem.
    + vm_compute. reflexivity.
  - apply (proj1 (C38_challenge toyX toy_params toy_wf (bytes_at toy_sig80 (off_digest toy_params) 32) toy_chal) 1000%nat).
    vm_compute. reflexivity.
  - assert (T : match generator_SF_seed_expand toyX toy_params 1000 (junk_rref toy_params toy_junk 0) [5; 6] with Ok _ => true | _ => false end = true)
      by (vm_compute; reflexivity).
    pose proof (generator_sampled toyX toy_params toy_wf 1000 _ [5; 6] (junk_rref_mem toy_params toy_junk 0)) as W.
    destruct (generator_SF_seed_expand toyX toy_params 1000 (junk_rref toy_params toy_junk 0) [5; 6]) as [c| |]; try discriminate.
    cbn [wp] in W. destruct W as (_ & M & SG). exists (ent M).
    apply (sampledG_generator_of toyX toy_params toy_wf toyX_lawful 1000 [5; 6] c M). exact SG.
  - vm_compute. reflexivity.
  - vm_compute. discriminate.
Qed.

(** *** C39: key generation *)
Theorem C39_keygen : forall X p, wf_params p -> lawful X (hash_len p) ->
  forall rng sk pk rng',
  (forall fuel junk sk0 pk0, length sk0 = sizeof_sk p -> length pk0 = sizeof_pk p -> bytes pk0 ->
     LESS_keygen X p fuel junk rng sk0 pk0 = Ok (sk, pk, rng') -> generates X p rng sk pk rng') /\
  (generates X p rng sk pk rng' -> exists f, forall fuel junk sk0 pk0, (f <= fuel)%nat ->
     length sk0 = sizeof_sk p -> length pk0 = sizeof_pk p -> bytes pk0 ->
     LESS_keygen X p fuel junk rng sk0 pk0 = Ok (sk, pk, rng')).
Proof.
  intros X p wf LX rng sk pk rng'. split.
  - intros fuel junk sk0 pk0 H1 H2 H3 E. eapply keygen_generates; eauto.
  - apply generates_keygen; auto.
Qed.

(** The specification determines the keys from the random bytes, and their form. *)
Theorem C39_keys : forall X p, wf_params p -> lawful X (hash_len p) ->
  forall rng sk pk rng', generates X p rng sk pk rng' ->
  key_form p pk /\ length sk = sizeof_sk p /\
  forall sk' pk' rng'', generates X p rng sk' pk' rng'' -> sk' = sk /\ pk' = pk /\ rng'' = rng'.
Proof.
  intros X p wf LX rng sk pk rng' G. split. { eapply generates_key_form; eauto. } split.
  - destruct G as (csk & g0 & r1 & G0 & A1 & A2 & A3 & _). rewrite A3, app_length.
    pose proof (law_sq_len _ _ LX (prikey_seed_len p) rng) as L1. pose proof (law_sq_len _ _ LX (seed_len p) r1) as L2.
    rewrite A1 in L1. rewrite A2 in L2. cbn [fst] in *. unfold sizeof_sk. lia.
  - intros sk' pk' rng'' G'. destruct (generates_det X p wf LX _ _ _ _ _ _ _ G G') as (-> & -> & ->). auto.
Qed.

Example C39_example : generates toyX toy_params 5 toy_sk toy_pk toy_rng5.
Proof.
  apply (proj1 (C39_keygen toyX toy_params toy_wf toyX_lawful 5 toy_sk toy_pk toy_rng5) 1000%nat toy_junk
    (repeat 9 (sizeof_sk toy_params)) (repeat 9 (sizeof_pk toy_params))).
  - apply repeat_length.
  - apply repeat_length.
  - apply bytes_of_check. vm_compute. reflexivity.
  - exact toy_keys_run.
Qed.

(** *** C40: signing *)
Theorem C40_sign : forall X p, wf_params p -> lawful X (hash_len p) ->
  forall rng sk m old sig num rng', length sk = sizeof_sk p -> length old = sizeof_sign p -> bytes old -> bytes m ->
  (forall fuel junk, LESS_sign X p fuel junk rng sk m old = Ok (sig, num, rng') -> signs X p rng sk m old sig num rng') /\
  (signs X p rng sk m old sig num rng' -> exists f, forall fuel junk, (f <= fuel)%nat ->
     LESS_sign X p fuel junk rng sk m old = Ok (sig, num, rng')).
Proof.
  intros X p wf LX rng sk m old sig num rng' H1 H2 H3 H4. split.
  - intros fuel junk E. eapply sign_signs; eauto.
  - apply signs_sign; auto.
Qed.

Theorem C40_signature_unique : forall X p, wf_params p -> lawful X (hash_len p) ->
  forall rng sk m old sig num rng' sig' num' rng'',
  signs X p rng sk m old sig num rng' -> signs X p rng sk m old sig' num' rng'' -> sig' = sig /\ num' = num /\ rng'' = rng'.
Proof.
  intros X p wf LX rng sk m old sig num rng' sig' num' rng'' S S'.
  destruct (signs_det X p wf LX _ _ _ _ _ _ _ _ _ _ S S') as (-> & -> & ->). auto.
Qed.

Example C40_example : signs toyX toy_params 80 toy_sk toy_msg (repeat 3 (sizeof_sign toy_params)) toy_sig80 2 toy_rng80.
Proof.
  apply (proj1 (C40_sign toyX toy_params toy_wf toyX_lawful 80 toy_sk toy_msg (repeat 3 (sizeof_sign toy_params)) toy_sig80 2 toy_rng80
    eq_refl (repeat_length _ _) (bytes_of_check (repeat 3 (sizeof_sign toy_params)) eq_refl) (bytes_of_check toy_msg eq_refl)) 1000%nat toy_junk).
  exact toy_sign_run.
Qed.

(** *** C41: verification *)

(** With a public key of the form that key generation gives it, verification has no undefined behaviour and
    decides whether the signature is valid. *)
Theorem C41_verify : forall X p, wf_params p -> lawful X (hash_len p) ->
  forall pk m sig, key_form p pk -> bytes m -> bytes sig -> long_enough X p sig ->
  (forall fuel junk, LESS_verify X p fuel junk pk m sig <> UB) /\
  (forall fuel junk r, LESS_verify X p fuel junk pk m sig = Ok r ->
     (r = 1 /\ valid X p pk m sig) \/ (r = 0 /\ ~ valid X p pk m sig)) /\
  (valid X p pk m sig -> exists f, forall fuel junk, (f <= fuel)%nat -> LESS_verify X p fuel junk pk m sig = Ok 1).
Proof.
  intros X p wf LX pk m sig HK Hm Hb Hl. pose proof (key_form_good p wf pk HK) as GP. split; [|split].
  - intros fuel junk E.
    assert (S : gp True (LESS_verify X p fuel junk pk m sig) (fun r => (r = 1 /\ accepted X p fuel pk m sig) \/ (r = 0 /\ rejected X p fuel pk m sig))).
    { apply LESS_verify_gp; auto.
      - apply (good_pk_wf p); auto.
      - apply Hl.
      - apply (seeds_fit_full X p); auto. }
    rewrite E in S. exact S.
  - intros fuel junk r E. eapply verify_valid; eauto.
  - intros V. apply valid_verify; auto.
Qed.

(** An object as large as the struct is long enough. *)
Theorem C41_full_size : forall X p, wf_params p -> forall sig, (sizeof_sign p - 1 <= length sig)%nat -> long_enough X p sig.
Proof. intros X p wf sig HL. apply full_size_long_enough; auto. Qed.

(** Signatures are valid: completeness of the specification, without any fuel or memory. *)
Theorem C41_signatures_valid : forall X p, wf_params p -> lawful X (hash_len p) ->
  forall r1 sk pk r1', generates X p r1 sk pk r1' ->
  forall r2 m old sig num r2', length old = sizeof_sign p -> bytes old -> bytes m ->
  signs X p r2 sk m old sig num r2' -> valid X p pk m sig.
Proof.
  intros X p wf LX r1 sk pk r1' HG r2 m old sig num r2' H1 H2 H3 HS.
  destruct (C39_keys X p wf LX _ _ _ _ HG) as (KF & SL & _).
  destruct (generates_keygen X p wf LX _ _ _ _ HG) as (f & Hf).
  assert (KP : keypair X p f sk pk).
  { exists (fun _ _ => 0), r1, r1', (repeat 0 (sizeof_sk p)), (repeat 0 (sizeof_pk p)). rewrite !repeat_length.
    split; auto. split; auto. split; [apply zero_bytes|]. apply Hf; auto; try apply repeat_length. apply zero_bytes. }
  destruct (signs_sign X p wf LX r2 sk m old sig num r2' SL H1 H2 H3 HS) as (g & Hg).
  pose proof (Hg g (fun _ _ => 0) (Nat.le_refl g)) as ES.
  pose proof (C01_correct X p wf LX f sk pk KP g _ r2 m old sig num r2' H1 H2 ES g (fun _ _ => 0) (Nat.le_refl g)) as CA.
  assert (SB : bytes sig /\ length sig = sizeof_sign p).
  { assert (T : sign_stuck X p True g (fun _ _ => 0) r2 sk m).
    { unfold sign_stuck. destruct (x_squeeze X (seed_len p) r2). destruct (x_squeeze X (hash_len p) x). cbv zeta. auto 10. }
    pose proof (LESS_sign_drawn X p wf LX True g (fun _ _ => 0) r2 sk m old T SL H1 H2) as S. rewrite ES in S. cbn [gp] in S.
    destruct S as (tree & c & G & acts & Vs & chal & fl & HSG & _). split; [apply (sg_bytes _ _ _ _ _ _ _ _ _ _ _ _ _ _ HSG)|apply (sg_len _ _ _ _ _ _ _ _ _ _ _ _ _ _ HSG)]. }
  destruct (C41_verify X p wf LX pk m sig KF H3 (proj1 SB)) as (_ & V & _).
  { apply C41_full_size; auto. rewrite (proj2 SB). lia. }
  destruct (V _ _ _ CA) as [[_ R]|[R _]]; [exact R|discriminate].
Qed.

(** A signature that is valid, and one that is not. *)
Example C41_example : valid toyX toy_params toy_pk toy_msg toy_sig80 /\ ~ valid toyX toy_params toy_pk [1; 2; 4] toy_sig80.
Proof.
  destruct (C39_keys toyX toy_params toy_wf toyX_lawful _ _ _ _ C39_example) as (KF & _ & _).
  assert (HB : bytes toy_sig80) by (apply bytes_of_check; vm_compute; reflexivity).
  assert (HL : long_enough toyX toy_params toy_sig80).
  { apply C41_full_size; [apply toy_wf|]. apply Nat.leb_le. vm_compute. reflexivity. }
  split.
  - destruct (C41_verify toyX toy_params toy_wf toyX_lawful toy_pk toy_msg toy_sig80 KF (bytes_of_check toy_msg eq_refl) HB HL) as (_ & V & _).
    destruct (V _ _ _ toy_accept) as [[_ R]|[R _]]; [exact R|discriminate].
  - destruct (C41_verify toyX toy_params toy_wf toyX_lawful toy_pk [1; 2; 4] toy_sig80 KF (bytes_of_check [1; 2; 4] eq_refl) HB HL) as (_ & V & _).
    destruct (V _ _ _ toy_reject) as [[R _]|[_ R]]; [discriminate|exact R].
Qed.

(** *** C42: opening a signed message *)

(** crypto_sign_open on a signed message of [smlen] bytes whose last byte is [c]: refused if [c] is too large;
    otherwise the bytes before the signature of [c] seeds are copied, their number is returned, and the return
    value is 0 exactly when the signature is valid for them. *)
Theorem C42_open : forall X p, wf_params p -> lawful X (hash_len p) ->
  forall pk m0 sm smlen c, key_form p pk -> bytes sm -> Z.of_nat (length sm) < 2 ^ 64 ->
  (1 <= smlen <= length sm)%nat -> nth (smlen - 1) sm 0 = Z.of_nat c ->
  (max_seeds p <= Z.of_nat c -> forall fuel junk, crypto_sign_open X p fuel junk m0 sm (Z.of_nat smlen) pk = Ok (-1, m0, None)) /\
  forall n, Z.of_nat c < max_seeds p -> smlen = (n + (off_seeds p + c * seed_len p + 1))%nat -> (n <= length m0)%nat ->
  long_enough X p (skipn n sm) ->
  let m := firstn n sm in let sig := skipn n sm in
  (forall fuel junk, crypto_sign_open X p fuel junk m0 sm (Z.of_nat smlen) pk <> UB) /\
  (forall fuel junk ret m1 len, crypto_sign_open X p fuel junk m0 sm (Z.of_nat smlen) pk = Ok (ret, m1, len) ->
     m1 = m ++ skipn n m0 /\ len = Some (Z.of_nat n) /\
     ((ret = 0 /\ valid X p pk m sig) \/ (ret = -1 /\ ~ valid X p pk m sig))) /\
  (valid X p pk m sig -> exists f, forall fuel junk, (f <= fuel)%nat ->
     crypto_sign_open X p fuel junk m0 sm (Z.of_nat smlen) pk = Ok (0, m ++ skipn n m0, Some (Z.of_nat n))).
Proof.
  intros X p wf LX pk m0 sm smlen c KF HB H64 Hs Hc.
  assert (LAST : u64 (Z.of_nat smlen - 1) = Z.of_nat (smlen - 1)) by (unfold u64; rewrite Z.mod_small; lia).
  assert (OP : forall fuel junk, crypto_sign_open X p fuel junk m0 sm (Z.of_nat smlen) pk =
    if max_seeds p <=? Z.of_nat c then Ok (-1, m0, None) else
      let mlen := u64 (Z.of_nat smlen - less_crypto_bytes p (Z.of_nat c)) in
      if (mlen <=? Z.of_nat (length sm)) && (mlen <=? Z.of_nat (length m0)) then
        d <- rd sm 0 (Z.to_nat mlen) ;;
        m1 <- wr m0 0 d ;;
        ok <- LESS_verify X p fuel junk pk (firstn (Z.to_nat mlen) m1) (skipn (Z.to_nat mlen) sm) ;;
        Ok (ok - 1, m1, Some mlen)
      else UB).
  { intros fuel junk. unfold crypto_sign_open. rewrite LAST.
    destruct (Z.ltb_spec (Z.of_nat (smlen - 1)) (Z.of_nat (length sm))); [|lia].
    rewrite Nat2Z.id, (get_ok _ _ 0), Hc by lia. reflexivity. }
  split. { intros Hm fuel junk. rewrite OP. destruct (Z.leb_spec (max_seeds p) (Z.of_nat c)); [auto|lia]. }
  intros n Hm En Hn Hl. cbv zeta.
  assert (OV : forall fuel junk, crypto_sign_open X p fuel junk m0 sm (Z.of_nat smlen) pk =
    (ok <- LESS_verify X p fuel junk pk (firstn n sm) (skipn n sm) ;; Ok (ok - 1, firstn n sm ++ skipn n m0, Some (Z.of_nat n)))).
  { intros fuel junk. rewrite OP. destruct (Z.leb_spec (max_seeds p) (Z.of_nat c)); [lia|]. pose proof (wf_max_byte p wf).
    rewrite (sig_len_val p wf) by lia. cbv zeta.
    replace (u64 (Z.of_nat smlen - (Z.of_nat (off_seeds p) + Z.of_nat c * Z.of_nat (seed_len p) + 1))) with (Z.of_nat n)
      by (unfold u64; rewrite Z.mod_small; lia).
    rewrite Nat2Z.id. destruct (Z.leb_spec (Z.of_nat n) (Z.of_nat (length sm))); [|lia].
    destruct (Z.leb_spec (Z.of_nat n) (Z.of_nat (length m0))); [|lia]. cbn [andb].
    rewrite rd_ok by lia. cbn [bind skipn]. assert (LF : length (firstn n sm) = n) by (rewrite firstn_length; lia).
    rewrite wr_ok by lia. cbn [bind firstn app Nat.add]. rewrite LF.
    rewrite firstn_app, LF, Nat.sub_diag, firstn_O, app_nil_r, firstn_firstn, Nat.min_id. reflexivity. }
  destruct (C41_verify X p wf LX pk (firstn n sm) (skipn n sm) KF) as (V1 & V2 & V3); auto.
  { apply Forall_firstn. exact HB. } { apply Forall_skipn. exact HB. }
  split; [|split].
  - intros fuel junk. rewrite OV. specialize (V1 fuel junk). destruct (LESS_verify X p fuel junk pk (firstn n sm) (skipn n sm)); cbn [bind]; congruence.
  - intros fuel junk ret m1 len. rewrite OV. specialize (V2 fuel junk).
    destruct (LESS_verify X p fuel junk pk (firstn n sm) (skipn n sm)) as [r| |]; cbn [bind]; try discriminate.
    intros E. injection E as <- <- <-. split; auto. split; auto. destruct (V2 r eq_refl) as [[-> R]|[-> R]]; auto.
  - intros VA. destruct (V3 VA) as (f & Hf). exists f. intros fuel junk Hfu. rewrite OV, Hf by auto. reflexivity.
Qed.

(** The signed message of C03_example meets the hypotheses: 112 bytes, 3 of them message, two seeds. *)
Example C42_example : forall fuel junk ret m1 len,
  crypto_sign_open toyX toy_params fuel junk [7; 7; 7; 7; 7] toy_sm80 112 toy_pk = Ok (ret, m1, len) ->
  m1 = [1; 2; 3; 7; 7] /\ len = Some 3 /\
  ((ret = 0 /\ valid toyX toy_params toy_pk [1; 2; 3] (skipn 3 toy_sm80)) \/ (ret = -1 /\ ~ valid toyX toy_params toy_pk [1; 2; 3] (skipn 3 toy_sm80))).
Proof.
  intros fuel junk. destruct (C39_keys toyX toy_params toy_wf toyX_lawful _ _ _ _ C39_example) as (KF & _ & _).
  assert (HB : bytes toy_sm80) by (apply bytes_of_check; vm_compute; reflexivity).
  destruct (C42_open toyX toy_params toy_wf toyX_lawful toy_pk [7; 7; 7; 7; 7] toy_sm80 112 2 KF HB) as (_ & H).
  { vm_compute. reflexivity. } { vm_compute. lia. } { vm_compute. reflexivity. }
  destruct (H 3%nat) as (_ & R & _).
  { vm_compute. reflexivity. } { vm_compute. reflexivity. } { vm_compute. lia. }
  { apply C41_full_size; [apply toy_wf|]. apply Nat.leb_le. vm_compute. reflexivity. }
  intros ret m1 len E. apply (R fuel junk ret m1 len E).
Qed.

(** *** C43: the optimised implementation *)
Theorem C43_keygen : forall X p q i, wf_params p -> lawful X (hash_len p) -> wf_pads p q ->
  forall rng sk pk rng',
  (forall fuel junk sk0 pk0, length sk0 = sizeof_sk p -> length pk0 = sizeof_pk p -> bytes pk0 ->
     LESS_keygen_o X p q i fuel junk rng sk0 pk0 = Ok (sk, pk, rng') -> generates X p rng sk pk rng') /\
  (generates X p rng sk pk rng' -> exists f, forall fuel junk sk0 pk0, (f <= fuel)%nat ->
     length sk0 = sizeof_sk p -> length pk0 = sizeof_pk p -> bytes pk0 ->
     LESS_keygen_o X p q i fuel junk rng sk0 pk0 = Ok (sk, pk, rng')).
Proof.
  intros X p q i wf LX wq rng sk pk rng'. destruct (C39_keygen X p wf LX rng sk pk rng') as [A B]. split.
  - intros fuel junk sk0 pk0 H1 H2 H3. rewrite keygen_eq by auto. apply A; auto.
  - intros G. destruct (B G) as (f & Hf). exists f. intros fuel junk sk0 pk0 Hfu H1 H2 H3. rewrite keygen_eq by auto. apply Hf; auto.
Qed.

Theorem C43_sign : forall X p q i, wf_params p -> lawful X (hash_len p) -> wf_pads p q ->
  forall rng sk m old sig num rng', length sk = sizeof_sk p -> length old = sizeof_sign p -> bytes old -> bytes m ->
  (forall fuel junk, LESS_sign_o X p q i fuel junk rng sk m old = Ok (sig, num, rng') -> signs X p rng sk m old sig num rng') /\
  (signs X p rng sk m old sig num rng' -> exists f, forall fuel junk, (f <= fuel)%nat ->
     LESS_sign_o X p q i fuel junk rng sk m old = Ok (sig, num, rng')).
Proof.
  intros X p q i wf LX wq rng sk m old sig num rng' H1 H2 H3 H4. destruct (C40_sign X p wf LX rng sk m old sig num rng' H1 H2 H3 H4) as [A B]. split.
  - intros fuel junk. rewrite sign_eq by auto. apply A.
  - intros S. destruct (B S) as (f & Hf). exists f. intros fuel junk Hfu. rewrite sign_eq by auto. apply Hf; auto.
Qed.

Theorem C43_verify : forall X p q i, wf_params p -> lawful X (hash_len p) -> wf_pads p q ->
  forall pk m sig, key_form p pk -> bytes m -> bytes sig -> long_enough X p sig ->
  (forall fuel junk, LESS_verify_o X p q i fuel junk pk m sig <> UB) /\
  (forall fuel junk r, LESS_verify_o X p q i fuel junk pk m sig = Ok r ->
     (r = 1 /\ valid X p pk m sig) \/ (r = 0 /\ ~ valid X p pk m sig)) /\
  (valid X p pk m sig -> exists f, forall fuel junk, (f <= fuel)%nat -> LESS_verify_o X p q i fuel junk pk m sig = Ok 1).
Proof.
  intros X p q i wf LX wq pk m sig KF Hm Hb Hl. destruct (C41_verify X p wf LX pk m sig KF Hm Hb Hl) as (A & B & C).
  assert (E : forall fuel junk, LESS_verify_o X p q i fuel junk pk m sig = LESS_verify X p fuel (ref_junk_v p q junk) pk m sig).
  { intros fuel junk. apply rsim_eq.
    - apply verify_equiv; auto. apply pk_wf_reduced; auto. apply (good_pk_wf p). apply key_form_good; auto.
    - apply A. }
  split; [|split].
  - intros fuel junk. rewrite E. apply A.
  - intros fuel junk r. rewrite E. apply B.
  - intros V. destruct (C V) as (f & Hf). exists f. intros fuel junk Hfu. rewrite E. auto.
Qed.

(** The optimised verifier accepts the signature of C40_example. *)
Example C43_example : exists f, LESS_verify_o toyX toy_params toy_pads AVX2 f toy_junk toy_pk toy_msg toy_sig80 = Ok 1.
Proof.
  destruct (C39_keys toyX toy_params toy_wf toyX_lawful _ _ _ _ C39_example) as (KF & _ & _).
  destruct (C43_verify toyX toy_params toy_pads AVX2 toy_wf toyX_lawful toy_pads_wf toy_pk toy_msg toy_sig80 KF) as (_ & _ & V).
  - apply bytes_of_check. vm_compute. reflexivity.
  - apply bytes_of_check. vm_compute. reflexivity.
  - apply C41_full_size; [apply toy_wf|]. apply Nat.leb_le. vm_compute. reflexivity.
  - destruct (V (proj1 C41_example)) as (f & Hf). exists f. apply Hf. auto.
Qed.

Print Assumptions C38_monomial.
Print Assumptions C38_generator.
Print Assumptions C38_challenge.
Print Assumptions C39_keygen.
Print Assumptions C39_keys.
Print Assumptions C40_sign.
Print Assumptions C40_signature_unique.
Print Assumptions C41_verify.
Print Assumptions C41_full_size.
Print Assumptions C41_signatures_valid.
Print Assumptions C42_open.
Print Assumptions C43_keygen.
Print Assumptions C43_sign.
Print Assumptions C43_verify.
