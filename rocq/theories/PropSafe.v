(** Properties C04 and C29, continued: exactly which inputs make verification leave its buffers. *)
From Verif Require Import Base BaseLemmas Params ParamsProofs Prim Less Sign Spec VerifyProofs ApiProofs Toy PropScheme PropApi LessSpec SpecMain SpecVerify PropSpec SafeProofs.

(** *** C29 *)

(** For a public key whose components announce at least K pivot columns and hold elements of the field,
    verification stays within its buffers exactly when the signature object is long enough for the seeds
    that its challenge asks for, and then the verdict is 0 or 1.
    Missing: the code checks neither the number of flags nor the fields; see the theorems below. *)
Theorem C29_usable_partial : forall X p, wf_params p -> lawful X (hash_len p) ->
  forall pk m sig, bytes pk -> usable_key p pk -> bytes sig ->
  ((forall fuel junk, LESS_verify X p fuel junk pk m sig <> UB) <-> long_enough X p sig) /\
  forall fuel junk r, LESS_verify X p fuel junk pk m sig = Ok r -> r = 0 \/ r = 1.
Proof.
  intros X p wf LX pk m sig HB HU Hs. split; [split|].
  - apply safe_long; auto.
  - intros Hl fuel junk E. pose proof (usable_safe X p wf LX fuel junk pk m sig HB HU Hs Hl) as W. rewrite E in W. exact W.
  - intros fuel junk r E. pose proof (verify_ok_long X p wf fuel junk pk m sig r E) as Hl.
    pose proof (usable_safe X p wf LX fuel junk pk m sig HB HU Hs Hl) as W. rewrite E in W. exact W.
Qed.

(** The keys of key generation are such keys. *)
Theorem C29_generated_usable : forall X p, wf_params p -> lawful X (hash_len p) -> (2 <= pK p)%nat ->
  forall rng sk pk rng', generates X p rng sk pk rng' -> usable_key p pk.
Proof.
  intros X p wf LX K2 rng sk pk rng' G. apply key_form_usable; auto. eapply generates_key_form; eauto.
Qed.

(** Whatever the key, the signature and the primitives, a verdict is only reached if the object is long enough
    and some challenged component announces K pivot columns; acceptance requires it of all challenged components.
    In particular a key all of whose components announce fewer never gets a verdict. *)
Theorem C29_flags : forall X p, wf_params p -> (2 <= pK p)%nat ->
  forall pk m sig, bytes pk -> length pk = sizeof_pk p ->
  forall fuel junk r, LESS_verify X p fuel junk pk m sig = Ok r ->
  long_enough X p sig /\
  exists chal, challenge_of X p (bytes_at sig (off_digest p) (hash_len p)) chal /\
    (exists t, (t < pT p)%nat /\ nth t chal 0 <> 0 /\
       (pK p <= flagged p (bytes_at pk (off_sf p (Z.to_nat (nth t chal 0%Z - 1))) (rref_bytes p)))%nat) /\
    (r = 1 -> forall t, (t < pT p)%nat -> nth t chal 0 <> 0 ->
       (pK p <= flagged p (bytes_at pk (off_sf p (Z.to_nat (nth t chal 0%Z - 1))) (rref_bytes p)))%nat).
Proof.
  intros X p wf K2 pk m sig HB HL fuel junk r E. split. { eapply verify_ok_long; eauto. }
  destruct (verify_flags X p wf fuel junk pk m sig r K2 HB HL E) as (chal & A & B & C). exists chal. auto.
Qed.

Theorem C29_few_flags : forall X p, wf_params p -> (2 <= pK p)%nat ->
  forall pk m sig, bytes pk -> length pk = sizeof_pk p ->
  (forall x, (x < p_nk p - 1)%nat -> (flagged p (bytes_at pk (off_sf p x) (rref_bytes p)) < pK p)%nat) ->
  forall fuel junk r, LESS_verify X p fuel junk pk m sig <> Ok r.
Proof.
  intros X p wf K2 pk m sig HB HL HF fuel junk r E.
  destruct (verify_flags X p wf fuel junk pk m sig r K2 HB HL E) as (chal & CO & _ & (t & Ht & Nt & F)).
  pose proof (challenge_of_ok X p wf _ _ CO) as HC.
  assert (KI : (Z.to_nat (nth t chal 0%Z - 1) < p_nk p - 1)%nat).
  { apply (key_index p chal HC t Ht). unfold nz. destruct (Z.eqb_spec (nth t chal 0) 0); auto. }
  specialize (HF _ KI). lia.
Qed.

(** The condition on the fields cannot be dropped either. This key has K = 3 flags in each component; in column 3
    the first row holds 127, which is not zero for the pivot search but is zero for the arithmetic, and the second
    row holds 1. Responses that bring three zero columns to the front make the reduction take column 3 as pivot
    twice, so that N-K+1 columns are written to an array of N-K. *)
Definition bad_component (x y : Z) : list Z :=
  le_bytes (rref_bytes toy_params) (2 ^ 129 + 2 ^ 130 + 2 ^ 131 + 2 ^ 136 * (x * 2 ^ (7 * 3) + y * 2 ^ (7 * (129 + 3)))).
Definition bad_key (x y : Z) : list Z := firstn (off_sf toy_params 0) toy_pk ++ bad_component x y ++ bad_component x y.
Definition front_action : list Z := le_bytes (mono_bytes toy_params) (0 + 1 * 2 ^ 8 + 2 * 2 ^ 16 + 2 ^ 24 * (1 + 1 * 2 ^ 7 + 1 * 2 ^ 14)).
Definition front_sig : list Z :=
  firstn (off_monom toy_params 0) toy_sig80 ++ concat (repeat front_action (pW toy_params)) ++ skipn (off_digest toy_params) toy_sig80.
Theorem C29_unreduced_refuted : exists X p pk sig,
  wf_params p /\ lawful X (hash_len p) /\ bytes pk /\ length pk = sizeof_pk p /\ bytes sig /\ length sig = sizeof_sign p /\
  (forall x, (x < p_nk p - 1)%nat -> flagged p (bytes_at pk (off_sf p x) (rref_bytes p)) = pK p) /\
  exists fuel junk m, LESS_verify X p fuel junk pk m sig = UB.
Proof.
  exists toyX, toy_params, (bad_key 127 1), front_sig. split; [apply toy_wf|]. split; [apply toyX_lawful|].
  split. { apply bytes_of_check. vm_compute. reflexivity. } split. { vm_compute. reflexivity. }
  split. { apply bytes_of_check. vm_compute. reflexivity. } split. { vm_compute. reflexivity. }
  split.
  - intros x Hx. change (p_nk toy_params - 1)%nat with 2%nat in Hx. destruct x as [|[|x]]; [vm_compute; reflexivity|vm_compute; reflexivity|lia].
  - exists 1000%nat, toy_junk, toy_msg. vm_compute. reflexivity.
Qed.

(** With 126 in place of 127 the key is usable although it is not in the form of a generated key (its echelon form
    is not the identity on the columns 129 to 131), and the same signature is refused. *)
Definition usable_check (pk : list Z) : bool :=
  (length pk =? sizeof_pk toy_params)%nat &&
  forallb (fun x => let v := le_val (bytes_at pk (off_sf toy_params x) (rref_bytes toy_params)) in
    let n := length (filter (fun c => Z.land (Z.shiftr v (Z.of_nat c)) 1 =? 1) (seq 0 (pN toy_params))) in
    (pK toy_params <=? n)%nat &&
    forallb (fun u => Z.land (Z.shiftr v (136 + 7 * Z.of_nat u)) 127 <? 127) (seq 0 (pK toy_params * (pN toy_params - n))))
    (seq 0 (p_nk toy_params - 1)).
Lemma usable_of_check pk : usable_check pk = true -> usable_key toy_params pk.
Proof.
  intros H. unfold usable_check in H. apply andb_prop in H. destruct H as [H1 H2]. split. { apply Nat.eqb_eq. auto. }
  intros x Hx. rewrite forallb_forall in H2. specialize (H2 x). cbv zeta in *. rewrite in_seq in H2.
  specialize (H2 (conj (Nat.le_0_l _) Hx)). set (buf := bytes_at pk (off_sf toy_params x) (rref_bytes toy_params)) in *.
  assert (F : flagged toy_params buf = length (filter (fun c => Z.land (Z.shiftr (le_val buf) (Z.of_nat c)) 1 =? 1) (seq 0 (pN toy_params)))).
  { unfold flagged. f_equal. apply filter_ext. intros c. rewrite Z.shiftr_div_pow2 by lia. rewrite (Z.land_ones _ 1) by lia. reflexivity. }
  rewrite <- F in H2. apply andb_prop in H2. destruct H2 as [H2 H3]. split. { apply Nat.leb_le. auto. }
  intros u Hu. rewrite forallb_forall in H3. specialize (H3 u). rewrite in_seq in H3. specialize (H3 ltac:(lia)).
  apply Z.ltb_lt in H3. rewrite Z.shiftr_div_pow2 in H3 by lia. rewrite (Z.land_ones _ 7) in H3 by lia. exact H3.
Qed.
Example C29_usable_example : usable_key toy_params (bad_key 126 1) /\ usable_key toy_params toy_pk /\
  LESS_verify toyX toy_params 1000 toy_junk (bad_key 126 1) toy_msg (firstn 107 front_sig) = UB /\
  LESS_verify toyX toy_params 1000 toy_junk (bad_key 126 1) toy_msg (firstn 108 front_sig) = Ok 0.
Proof.
  split. { apply usable_of_check. vm_compute. reflexivity. }
  split. { eapply C29_generated_usable; [apply toy_wf|apply toyX_lawful|vm_compute; lia|apply C39_example]. }
  split; vm_compute; reflexivity.
Qed.

(** *** C04 *)

(** crypto_sign_open on the [smlen] bytes of [sm], the last of which is [c], with such a key and a buffer of at least
    [smlen] bytes for the message, stays within its buffers exactly when [c] is refused, or the announced
    signature fits and the object is long enough for the seeds that its challenge asks for. The code tests only
    the first. *)
Theorem C04_open_exact : forall X p, wf_params p -> lawful X (hash_len p) ->
  forall pk m0 sm smlen c, bytes pk -> usable_key p pk -> bytes sm -> Z.of_nat (length sm) < 2 ^ 62 ->
  (1 <= smlen <= length sm)%nat -> (smlen <= length m0)%nat -> nth (smlen - 1) sm 0 = Z.of_nat c ->
  ((forall fuel junk, crypto_sign_open X p fuel junk m0 sm (Z.of_nat smlen) pk <> UB) <->
   (max_seeds p <= Z.of_nat c \/
    exists n, smlen = (n + (off_seeds p + c * seed_len p + 1))%nat /\ long_enough X p (skipn n sm))) /\
  forall fuel junk ret m1 mlen, crypto_sign_open X p fuel junk m0 sm (Z.of_nat smlen) pk = Ok (ret, m1, mlen) ->
    (ret = 0 \/ ret = -1) /\ length m1 = length m0.
Proof.
  intros X p wf LX pk m0 sm smlen c HB HU Hs H62 Hl Hm0 Hc. pose proof (wf_max_byte p wf) as MB.
  assert (LAST : u64 (Z.of_nat smlen - 1) = Z.of_nat (smlen - 1)) by (unfold u64; rewrite Z.mod_small; lia).
  assert (SMALL : Z.of_nat (off_seeds p) + 256 * Z.of_nat (seed_len p) + 1 <= 2 ^ 32).
  { pose proof (mono_bytes_le p wf). pose proof (wf_W p wf). pose proof (wf_T p wf).
    assert (seed_len p <= 32)%nat by (unfold seed_len; destruct (p_cat p); lia). unfold off_seeds, hash_len. nia. }
  destruct (Z.leb_spec (max_seeds p) (Z.of_nat c)) as [Mc|Mc].
  { assert (OP : forall fuel junk, crypto_sign_open X p fuel junk m0 sm (Z.of_nat smlen) pk = Ok (-1, m0, None)).
    { intros fuel junk. unfold crypto_sign_open. rewrite LAST. destruct (Z.ltb_spec (Z.of_nat (smlen - 1)) (Z.of_nat (length sm))); [|lia].
      rewrite Nat2Z.id, (get_ok _ _ 0), Hc by lia. cbn [bind]. destruct (Z.leb_spec (max_seeds p) (Z.of_nat c)); [auto|lia]. }
    split. { split; auto. intros _ fuel junk. rewrite OP. discriminate. }
    intros fuel junk ret m1 mlen. rewrite OP. intros E. injection E as <- <- <-. auto. }
  destruct (le_lt_dec (off_seeds p + c * seed_len p + 1) smlen) as [F|F].
  - set (n := (smlen - (off_seeds p + c * seed_len p + 1))%nat).
    assert (OV : forall fuel junk, crypto_sign_open X p fuel junk m0 sm (Z.of_nat smlen) pk =
      (ok <- LESS_verify X p fuel junk pk (firstn n sm) (skipn n sm) ;; Ok (ok - 1, firstn n sm ++ skipn n m0, Some (Z.of_nat n)))).
    { intros fuel junk. unfold crypto_sign_open. rewrite LAST. destruct (Z.ltb_spec (Z.of_nat (smlen - 1)) (Z.of_nat (length sm))); [|lia].
      rewrite Nat2Z.id, (get_ok _ _ 0), Hc by lia. cbn [bind]. destruct (Z.leb_spec (max_seeds p) (Z.of_nat c)); [lia|].
      rewrite (sig_len_val p wf) by lia. cbv zeta.
      replace (u64 (Z.of_nat smlen - (Z.of_nat (off_seeds p) + Z.of_nat c * Z.of_nat (seed_len p) + 1))) with (Z.of_nat n)
        by (unfold u64; rewrite Z.mod_small; lia).
      rewrite Nat2Z.id. destruct (Z.leb_spec (Z.of_nat n) (Z.of_nat (length sm))); [|lia].
      destruct (Z.leb_spec (Z.of_nat n) (Z.of_nat (length m0))); [|lia]. cbn [andb].
      rewrite rd_ok by lia. cbn [bind skipn]. assert (LF : length (firstn n sm) = n) by (rewrite firstn_length; lia).
      rewrite wr_ok by lia. cbn [bind firstn app Nat.add]. rewrite LF.
      rewrite firstn_app, LF, Nat.sub_diag, firstn_O, app_nil_r, firstn_firstn, Nat.min_id. reflexivity. }
    destruct (C29_usable_partial X p wf LX pk (firstn n sm) (skipn n sm) HB HU) as (V1 & V2). { apply Forall_skipn. auto. }
    split; [split|].
    + intros H. right. exists n. split; [lia|]. apply V1. intros fuel junk E. apply (H fuel junk). rewrite OV, E. reflexivity.
    + intros [C|(n' & En & HLE)]; [lia|]. assert (n' = n) as -> by lia. intros fuel junk E. rewrite OV in E.
      pose proof (proj2 V1 HLE fuel junk) as NU. destruct (LESS_verify X p fuel junk pk (firstn n sm) (skipn n sm)); cbn [bind] in E; congruence.
    + intros fuel junk ret m1 mlen. rewrite OV. specialize (V2 fuel junk).
      destruct (LESS_verify X p fuel junk pk (firstn n sm) (skipn n sm)) as [r| |]; cbn [bind]; try discriminate.
      intros E. injection E as <- <- <-. split. { destruct (V2 r eq_refl) as [-> | ->]; auto. }
      rewrite app_length, firstn_length, skipn_length. lia.
  - assert (OU : forall fuel junk, crypto_sign_open X p fuel junk m0 sm (Z.of_nat smlen) pk = UB).
    { intros fuel junk. unfold crypto_sign_open. rewrite LAST. destruct (Z.ltb_spec (Z.of_nat (smlen - 1)) (Z.of_nat (length sm))); [|lia].
      rewrite Nat2Z.id, (get_ok _ _ 0), Hc by lia. cbn [bind]. destruct (Z.leb_spec (max_seeds p) (Z.of_nat c)); [lia|].
      rewrite (sig_len_val p wf) by lia. cbv zeta.
      assert (U : u64 (Z.of_nat smlen - (Z.of_nat (off_seeds p) + Z.of_nat c * Z.of_nat (seed_len p) + 1)) =
         Z.of_nat smlen - (Z.of_nat (off_seeds p) + Z.of_nat c * Z.of_nat (seed_len p) + 1) + 2 ^ 64).
      { unfold u64. rewrite <- (Z.mod_add _ 1) by lia. rewrite Z.mod_small; nia. }
      rewrite U.
      match goal with |- (if (?a <=? ?b) && _ then _ else _) = _ => destruct (Z.leb_spec a b) end; [nia|reflexivity]. }
    split; [split|].
    + intros H. exfalso. apply (H 0%nat (fun _ _ => 0)). apply OU.
    + intros [C|(n' & En & _)]; lia.
    + intros fuel junk ret m1 mlen. rewrite OU. discriminate.
Qed.

(** An empty signed message: the last byte is read before the buffer. *)
Theorem C04_empty_refuted : forall X p fuel junk m0 sm pk, Z.of_nat (length sm) < 2 ^ 62 ->
  crypto_sign_open X p fuel junk m0 sm 0 pk = UB.
Proof.
  intros. unfold crypto_sign_open. change (u64 (0 - 1)) with (2 ^ 64 - 1).
  destruct (Z.ltb_spec (2 ^ 64 - 1) (Z.of_nat (length sm))); [lia|reflexivity].
Qed.

(** The honest signed message of 112 bytes, in a buffer of exactly that size, is opened safely; with the count byte
    lowered to 1 and the last seed removed it is not. *)
Example C04_exact_example :
  (forall fuel junk, crypto_sign_open toyX toy_params fuel junk (repeat 7 112) (firstn 112 toy_sm80) 112 toy_pk <> UB) /\
  crypto_sign_open toyX toy_params 1000 toy_junk (repeat 7 112) (firstn 95 toy_sm80 ++ [1]) 96 toy_pk = UB.
Proof.
  split; [|vm_compute; reflexivity].
  assert (BK : bytes toy_pk) by (apply bytes_of_check; vm_compute; reflexivity).
  assert (BS : bytes (firstn 112 toy_sm80)) by (apply bytes_of_check; vm_compute; reflexivity).
  destruct (C04_open_exact toyX toy_params toy_wf toyX_lawful toy_pk (repeat 7 112) (firstn 112 toy_sm80) 112 2 BK) as ((_ & H) & _); auto.
  { apply C29_usable_example. } { vm_compute. reflexivity. } { vm_compute. lia. }
  apply H. right. exists 3%nat. split; [vm_compute; reflexivity|].
  destruct (C29_usable_partial toyX toy_params toy_wf toyX_lawful toy_pk toy_msg (skipn 3 (firstn 112 toy_sm80)) BK) as ((V & _) & _).
  { apply C29_usable_example. } { apply Forall_skipn. exact BS. }
  eapply (verify_ok_long toyX toy_params toy_wf 1000 toy_junk toy_pk toy_msg _ 1).
  apply toy_accepts_prefix; [lia|apply Forall_skipn; exact BS|reflexivity].
Qed.

Print Assumptions C29_usable_partial.
Print Assumptions C29_generated_usable.
Print Assumptions C29_flags.
Print Assumptions C29_few_flags.
Print Assumptions C29_unreduced_refuted.
Print Assumptions C04_open_exact.
Print Assumptions C04_empty_refuted.
