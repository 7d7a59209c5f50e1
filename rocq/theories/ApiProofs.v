(** The NIST API (sign.c): layout of signed messages, opening, and malleability. *)
From Coq Require Import Permutation Setoid.
From Verif Require Import Base BaseLemmas Params ParamsProofs Fq FqProofs EnumProofs LinAlg Prim Samplers
  Monomial Codes SeedTree Utils Less Sign RrefProofs LexProofs SortProofs MonoProofs ActionProofs BitCodec CodecProofs
  RrefCodec SamplerProofs SeedTreeProofs FuelProofs RoundProofs VerifyProofs SignerProofs.

(** *** A run of the verifier does not look beyond the published seeds *)
Section Local.
Variable X : prim.
Variable p : params.
Notation L := (num_leaves p).
Notation nn := (num_nodes p).
Notation slen := (seed_len p).

Lemma simr_refl {A} (m : res A) : simr eq m m.
Proof. intros a E. eauto. Qed.

Lemma simr_rd (l l' : list Z) o n lim : (lim <= length l')%nat -> firstn lim l' = firstn lim l ->
  (o + n <= length l -> o + n <= lim)%nat -> simr eq (rd l o n) (rd l' o n).
Proof.
  intros H1 H2 H3 a E. unfold rd in E. destruct (Nat.leb_spec (o + n) (length l)); [|discriminate].
  injection E as <-. exists (firstn n (skipn o l')). rewrite rd_ok by lia. split; auto.
  apply (list_ext 0). { rewrite !firstn_length, !skipn_length. lia. }
  intros i Hi. rewrite firstn_length, skipn_length in Hi. rewrite !nth_firstn by lia. rewrite !nth_skipn.
  rewrite <- (nth_firstn l' lim), <- (nth_firstn l lim) by lia. congruence.
Qed.

Lemma rebuild_local tree ind stored stored' salt c :
  (length stored <= c * slen + 1)%nat -> (c * slen <= length stored')%nat ->
  firstn (c * slen) stored' = firstn (c * slen) stored ->
  simr eq (rebuild_seed_tree_leaves X p tree ind stored salt) (rebuild_seed_tree_leaves X p tree ind stored' salt).
Proof.
  intros H1 H2 H3. pose proof (slen_pos p). assert (S2 : (2 <= slen)%nat) by (unfold seed_len; destruct (p_cat p); lia).
  unfold rebuild_seed_tree_leaves.
  eapply simr_bind. { apply simr_refl. } intros fl _ <-.
  eapply simr_mono. { apply simr_for with (I := fun _ => @eq (nat * list (list Z))). { reflexivity. }
  intros i [used t] _ Hi <-. eapply simr_bind. { apply simr_refl. } intros f _ <-. destruct (f =? 0).
  - eapply simr_bind. { apply simr_refl. } intros pf _ <-.
    eapply simr_bind with (R := eq).
    + destruct (pf =? 1); [|apply simr_refl]. eapply simr_bind.
      { apply simr_rd with (lim := (c * slen)%nat); auto. intros Hr.
        assert (S used <= c)%nat by (destruct (Nat.le_gt_cases (S used) c); auto; nia). nia. }
      intros sd _ <-. apply simr_refl.
    + intros [u1 t1] _ <-. apply simr_refl.
  - apply simr_refl. } auto.
Qed.

Lemma verify_loop_local fuel pk sig sig' salt tree G0 fws : forall n i h V G act disc used,
  (off_seeds p <= length sig')%nat -> firstn (off_seeds p) sig' = firstn (off_seeds p) sig ->
  simr eq (verify_loop X p fuel n i pk sig salt tree G0 fws h V G act disc used)
          (verify_loop X p fuel n i pk sig' salt tree G0 fws h V G act disc used).
Proof.
  intros n i h V G act disc used H1 H2. revert i h V G act disc used.
  induction n as [|n IH]; intros; cbn [verify_loop]. { apply simr_refl. }
  eapply simr_bind. { apply simr_refl. } intros x _ <-. destruct (x =? 0).
  - eapply simr_bind. { apply simr_refl. } intros G1 _ <-.
    eapply simr_bind. { apply simr_refl. } intros sd _ <-.
    eapply simr_bind. { apply simr_refl. } intros Q _ <-.
    eapply simr_bind. { apply simr_refl. } intros [V' d'] _ <-. apply IH.
  - eapply simr_bind. { apply simr_refl. } intros buf _ <-.
    eapply simr_bind. { apply simr_refl. } intros G1 _ <-.
    destruct (Nat.ltb_spec used (pW p)); [|apply simr_refl].
    eapply simr_bind. { apply simr_rd with (lim := off_seeds p); auto. intros _. unfold off_monom, off_seeds. nia. }
    intros ab _ <-.
    eapply simr_bind. { apply simr_refl. } intros a' _ <-.
    eapply simr_bind. { apply simr_refl. } intros v _ <-. destruct (v =? 0). { apply simr_refl. }
    eapply simr_bind. { apply simr_refl. } intros Gh _ <-.
    eapply simr_bind. { apply simr_refl. } intros [[ret Gr] piv] _ <-.
    eapply simr_bind. { apply simr_refl. } intros V1 _ <-.
    eapply simr_bind. { apply simr_refl. } intros V2 _ <-. apply IH.
Qed.

(** If the memory of the signature ends at most one byte after [c] published seeds, then only the
    part before that byte matters. *)
Lemma LESS_verify_local fuel junk pk m sig sig' c r :
  (length sig <= off_seeds p + c * slen + 1)%nat -> (off_seeds p + c * slen <= length sig')%nat ->
  firstn (off_seeds p + c * slen) sig' = firstn (off_seeds p + c * slen) sig ->
  LESS_verify X p fuel junk pk m sig = Ok r -> LESS_verify X p fuel junk pk m sig' = Ok r.
Proof.
  intros H1 H2 H3. apply simr_eq. unfold LESS_verify.
  assert (H4 : firstn (off_seeds p) sig' = firstn (off_seeds p) sig).
  { apply (f_equal (firstn (off_seeds p))) in H3. rewrite !firstn_firstn in H3.
    rewrite Nat.min_l in H3 by lia. auto. }
  assert (H5 : (off_seeds p <= length sig')%nat) by lia.
  eapply simr_bind. { apply simr_rd with (lim := off_seeds p); [auto|auto|]. intros _. unfold off_digest, off_seeds. lia. }
  intros dg _ <-.
  eapply simr_bind. { apply simr_refl. } intros fws _ <-.
  eapply simr_bind. { apply simr_rd with (lim := off_seeds p); [auto|auto|]. intros _. unfold off_seeds. lia. }
  intros salt _ <-.
  eapply simr_bind.
  { apply rebuild_local with (c := c). { rewrite skipn_length. lia. } { rewrite skipn_length. lia. }
    apply (f_equal (skipn (off_seeds p))) in H3. rewrite !skipn_firstn_comm in H3.
    replace (off_seeds p + c * slen - off_seeds p)%nat with (c * slen)%nat in H3 by lia. auto. }
  intros [t0 tree] _ <-.
  eapply simr_bind. { apply simr_refl. } intros g0 _ <-.
  eapply simr_bind. { apply simr_refl. } intros G0 _ <-.
  eapply simr_bind. { apply verify_loop_local; auto. } intros r' _ <-. apply simr_refl.
Qed.
End Local.

Section A.
Variable X : prim.
Variable p : params.
Hypothesis wf : wf_params p.
Hypothesis LX : lawful X (hash_len p).
Notation N := (pN p).
Notation K := (pK p).
Notation slen := (seed_len p).
Notation nn := (num_nodes p).

(** *** Sizes *)
Lemma mono_bytes_le : (mono_bytes p <= 2178)%nat.
Proof.
  unfold mono_bytes. rewrite bits_127, (bits_N p wf). pose proof (wf_K p wf). pose proof (wf_cat p wf) as C.
  destruct (p_cat p); lia.
Qed.

Lemma sig_len_val n : 0 <= n < 256 -> less_crypto_bytes p n = Z.of_nat (off_seeds p) + n * Z.of_nat slen + 1.
Proof.
  intros H. unfold less_crypto_bytes, u32. pose proof mono_bytes_le. pose proof (wf_W p wf). pose proof (wf_T p wf).
  assert (seed_len p <= 32)%nat by (unfold seed_len; destruct (p_cat p); lia).
  unfold off_seeds, hash_len. rewrite Z.mod_small; nia.
Qed.

Lemma maxbytes_val : p_maxbytes p = max_seeds p * Z.of_nat slen.
Proof.
  unfold max_seeds. pose proof (wf_max p wf) as E. pose proof (slen_pos p). rewrite E.
  rewrite Z.mul_comm at 1. rewrite (Z.mul_comm (Z.of_nat slen)). rewrite Z.div_mul by lia. lia.
Qed.

Lemma max_seeds_nonneg : 0 <= max_seeds p.
Proof.
  unfold max_seeds. pose proof (slen_pos p). pose proof (wf_max p wf) as E.
  pose proof (wf_W p wf). pose proof (wf_T p wf).
  assert (L1 : Z.log2_up (Z.of_nat (pW p)) <= Z.of_nat (tree_height p)).
  { rewrite (height_log p wf). etransitivity. { apply Z.log2_up_le_mono. apply inj_le. apply wf_W. auto. }
    apply Z.le_log2_up_succ_log2. }
  pose proof (Z.log2_up_nonneg (Z.of_nat (pW p))) as L0.
  assert (P : Z.of_nat (pW p) <= 2 ^ Z.log2_up (Z.of_nat (pW p))) by (apply Z.log2_log2_up_spec; lia).
  apply Z.div_pos; [|lia]. rewrite E. nia.
Qed.

(** *** crypto_sign *)
Lemma crypto_sign_gp (F : Prop) fuel junk rng sm m sk : sign_stuck X p F fuel junk rng sk m -> length sk = sizeof_sk p -> bytes sm -> bytes m ->
  (length m + sizeof_sign p <= length sm)%nat -> Z.of_nat (length sm) < 2 ^ 64 ->
  gp F (crypto_sign X p fuel junk rng sm m sk) (fun '(ret, sm', smlen, _) =>
    ret = 0 /\ length sm' = length sm /\ bytes sm' /\
    exists sig num tree c fullG acts Vs fws fl,
      signed X p fuel sk m sig num tree c fullG acts Vs fws fl /\
      sm' = m ++ sig ++ skipn (length m + sizeof_sign p) sm /\
      smlen = Z.of_nat (length m + off_seeds p + num * slen + 1)).
Proof.
  intros HF Hsk HB HM Hfit H64. unfold crypto_sign.
  rewrite wr_ok by lia. cbn [bind firstn app Nat.add].
  set (sm1 := m ++ skipn (length m) sm).
  assert (L1 : length sm1 = length sm) by (unfold sm1; rewrite app_length, skipn_length; lia).
  assert (B1 : bytes sm1) by (apply Forall_app; split; auto; apply Forall_skipn; auto).
  rewrite rd_ok by lia. cbn [bind].
  eapply gp_bind.
  { apply LESS_sign_gp; auto. rewrite firstn_length, skipn_length. lia. apply Forall_firstn, Forall_skipn; auto. }
  intros [[sig num] rng'] (tree & c & fullG & acts & Vs & fws & fl & HS).
  pose proof (sg_len _ _ _ _ _ _ _ _ _ _ _ _ _ _ HS) as SL. pose proof (sg_bytes _ _ _ _ _ _ _ _ _ _ _ _ _ _ HS) as SB.
  pose proof (sg_max _ _ _ _ _ _ _ _ _ _ _ _ _ _ HS) as SM. pose proof (sg_maxb _ _ _ _ _ _ _ _ _ _ _ _ _ _ HS) as SMb.
  rewrite wr_ok by lia. cbn [bind gp]. split; auto.
  split. { rewrite wr_length; lia. } split. { apply Forall_wr; auto. }
  exists sig, num, tree, c, fullG, acts, Vs, fws, fl. split; auto.
  pose proof (wf_max_byte p wf). unfold u32 at 1. rewrite Z.mod_small by lia. rewrite sig_len_val by lia. split.
  - rewrite SL. unfold sm1. rewrite firstn_app, firstn_all, Nat.sub_diag. cbn [firstn]. rewrite app_nil_r.
    f_equal. f_equal. rewrite skipn_app, skipn_all2 by lia. cbn [app].
    rewrite skipn_skipn. f_equal. lia.
  - unfold u64. rewrite Z.mod_small. lia. unfold sizeof_sign, seed_storage_len in *. lia.
Qed.

Lemma crypto_sign_spec fuel junk rng sm m sk : length sk = sizeof_sk p -> bytes sm -> bytes m ->
  (length m + sizeof_sign p <= length sm)%nat -> Z.of_nat (length sm) < 2 ^ 64 ->
  wp (crypto_sign X p fuel junk rng sm m sk) (fun '(ret, sm', smlen, _) =>
    ret = 0 /\ length sm' = length sm /\ bytes sm' /\
    exists sig num tree c fullG acts Vs fws fl,
      signed X p fuel sk m sig num tree c fullG acts Vs fws fl /\
      sm' = m ++ sig ++ skipn (length m + sizeof_sign p) sm /\
      smlen = Z.of_nat (length m + off_seeds p + num * slen + 1)).
Proof.
  intros H1 H2 H3 H4 H5. apply gp_wp. apply crypto_sign_gp; auto. unfold sign_stuck.
  destruct (x_squeeze X slen rng). destruct (x_squeeze X (hash_len p) x). cbv zeta. auto 10.
Qed.

(** *** Opening an honest signed message *)
Lemma nth_app3 (m sig rest : list Z) k : (k < length sig)%nat -> nth (length m + k) (m ++ sig ++ rest) 0 = nth k sig 0.
Proof.
  intros H. rewrite app_nth2 by lia. replace (length m + k - length m)%nat with k by lia. apply app_nth1. auto.
Qed.

Lemma open_sign fk fs fv junk sk pk m sig num tree c fullG acts Vs fws fl rest sm m0 smlen :
  honest_key X p fk sk pk -> signed X p fs sk m sig num tree c fullG acts Vs fws fl -> (fs <= fv)%nat ->
  smlen = (length m + off_seeds p + num * slen + 1)%nat ->
  bytes sm -> (smlen <= length sm)%nat -> Z.of_nat (length sm) < 2 ^ 64 ->
  firstn smlen sm = firstn smlen (m ++ sig ++ rest) -> (length m <= length m0)%nat ->
  crypto_sign_open X p fv junk m0 sm (Z.of_nat smlen) pk =
    if Z.of_nat num =? max_seeds p then Ok (-1, m0, None)
    else Ok (0, m ++ skipn (length m) m0, Some (Z.of_nat (length m))).
Proof.
  intros HK HS Hf Esm HB Hl H64 E Hm0.
  pose proof (sg_len _ _ _ _ _ _ _ _ _ _ _ _ _ _ HS) as SL.
  pose proof (sg_max _ _ _ _ _ _ _ _ _ _ _ _ _ _ HS) as SM. pose proof (sg_maxb _ _ _ _ _ _ _ _ _ _ _ _ _ _ HS) as SMb.
  pose proof (sg_count _ _ _ _ _ _ _ _ _ _ _ _ _ _ HS) as SC. pose proof (wf_max_byte p wf) as MB.
  assert (FIT : (off_seeds p + num * slen + 1 <= length sig)%nat) by (rewrite SL; unfold sizeof_sign, seed_storage_len; lia).
  assert (RD : forall i, (i < smlen)%nat -> nth i sm 0 = nth i (m ++ sig ++ rest) 0).
  { intros i Hi. rewrite <- (nth_firstn sm smlen), <- (nth_firstn (m ++ sig ++ rest) smlen) by lia. congruence. }
  unfold crypto_sign_open.
  assert (LAST : u64 (Z.of_nat smlen - 1) = Z.of_nat (length m + (off_seeds p + num * slen))).
  { unfold u64. rewrite Z.mod_small; lia. }
  rewrite LAST. destruct (Z.ltb_spec (Z.of_nat (length m + (off_seeds p + num * slen))) (Z.of_nat (length sm))); [|lia].
  rewrite (get_ok _ _ 0) by lia. cbn [bind]. rewrite Nat2Z.id, RD by lia. rewrite nth_app3 by lia. rewrite SC.
  destruct (Z.eqb_spec (Z.of_nat num) (max_seeds p)) as [Em|Em].
  { destruct (Z.leb_spec (max_seeds p) (Z.of_nat num)); [auto|lia]. }
  destruct (Z.leb_spec (max_seeds p) (Z.of_nat num)); [lia|].
  rewrite sig_len_val by lia.
  assert (EM : u64 (Z.of_nat smlen - (Z.of_nat (off_seeds p) + Z.of_nat num * Z.of_nat slen + 1)) = Z.of_nat (length m)).
  { unfold u64. rewrite Z.mod_small; lia. }
  rewrite EM. rewrite Nat2Z.id.
  destruct (Z.leb_spec (Z.of_nat (length m)) (Z.of_nat (length sm))); [|lia].
  destruct (Z.leb_spec (Z.of_nat (length m)) (Z.of_nat (length m0))); [|lia]. cbn [andb].
  rewrite rd_ok by lia. cbn [bind skipn].
  assert (EMM : firstn (length m) sm = m).
  { apply (list_ext 0). { rewrite firstn_length. lia. }
    intros i Hi. rewrite firstn_length in Hi. rewrite nth_firstn by lia. rewrite RD by lia. apply app_nth1. lia. }
  rewrite EMM. rewrite wr_ok by lia. cbn [bind firstn app Nat.add].
  rewrite firstn_app, firstn_all, Nat.sub_diag. cbn [firstn]. rewrite app_nil_r.
  rewrite (sign_verify X p wf LX fk fs fv junk sk pk m sig num tree c fullG acts Vs fws fl HK HS Hf (skipn (length m) sm)).
  - cbn [bind]. auto.
  - apply Forall_skipn. auto.
  - apply (list_ext 0). { rewrite !firstn_length, skipn_length. lia. }
    intros i Hi. rewrite firstn_length in Hi. rewrite !nth_firstn by lia. rewrite nth_skipn. rewrite RD by lia.
    apply nth_app3. lia.
Qed.

(** *** Safety of crypto_sign_open *)
Lemma open_safe fuel junk pk m0 sm smlen : pk_wf p pk -> bytes sm -> Z.of_nat (length sm) < 2 ^ 64 ->
  (1 <= smlen <= length sm)%nat -> (smlen <= length m0)%nat ->
  (forall c, nth (smlen - 1) sm 0 = Z.of_nat c -> Z.of_nat c < max_seeds p ->
     (off_seeds p + c * slen + 1 <= smlen /\ smlen - (off_seeds p + c * slen + 1) + (sizeof_sign p - 1) <= length sm)%nat) ->
  wp (crypto_sign_open X p fuel junk m0 sm (Z.of_nat smlen) pk) (fun '(ret, m1, mlen) =>
    (ret = 0 \/ ret = -1) /\ length m1 = length m0).
Proof.
  intros HP HB H64 Hs Hm0 HC. unfold crypto_sign_open.
  assert (LAST : u64 (Z.of_nat smlen - 1) = Z.of_nat (smlen - 1)) by (unfold u64; rewrite Z.mod_small; lia).
  rewrite LAST. destruct (Z.ltb_spec (Z.of_nat (smlen - 1)) (Z.of_nat (length sm))); [|lia].
  rewrite Nat2Z.id. rewrite (get_ok _ _ 0) by lia. cbn [bind].
  assert (BC : is_byte (nth (smlen - 1) sm 0)).
  { unfold bytes in HB. rewrite Forall_forall in HB. apply HB. apply nth_In. lia. }
  unfold is_byte in BC. destruct (Z_of_nat_complete (nth (smlen - 1) sm 0)) as (c & Ec); [lia|].
  rewrite Ec in *. destruct (Z.leb_spec (max_seeds p) (Z.of_nat c)). { cbn [wp]. auto. }
  destruct (HC c eq_refl ltac:(lia)) as [C1 C2]. pose proof (wf_max_byte p wf). rewrite sig_len_val by lia.
  assert (EM : u64 (Z.of_nat smlen - (Z.of_nat (off_seeds p) + Z.of_nat c * Z.of_nat slen + 1)) =
     Z.of_nat (smlen - (off_seeds p + c * slen + 1))).
  { unfold u64. rewrite Z.mod_small; lia. }
  rewrite EM, Nat2Z.id. set (ml := (smlen - (off_seeds p + c * slen + 1))%nat) in *.
  assert (ML : (ml <= smlen)%nat) by (unfold ml; lia).
  destruct (Z.leb_spec (Z.of_nat ml) (Z.of_nat (length sm))); [|lia].
  destruct (Z.leb_spec (Z.of_nat ml) (Z.of_nat (length m0))); [|lia]. cbn [andb].
  rewrite rd_ok by lia. cbn [bind skipn].
  assert (LF : length (firstn ml sm) = ml) by (rewrite firstn_length; lia).
  rewrite wr_ok by lia. cbn [bind].
  set (m1 := firstn 0 m0 ++ firstn ml sm ++ skipn (0 + length (firstn ml sm)) m0).
  assert (L1 : length m1 = length m0) by (unfold m1; rewrite wr_length; lia).
  eapply wp_bind.
  { apply gp_wp. apply LESS_verify_gp; auto.
    - apply Forall_skipn. auto.
    - rewrite skipn_length. unfold sizeof_sign, seed_storage_len in *. lia.
    - left. rewrite skipn_length. lia. }
  intros r Hr. cbn [wp]. split; auto. destruct Hr as [(-> & _)|(-> & _)]; auto.
Qed.

(** Signed messages shorter than the signature length announced by their last byte. *)
Lemma open_short fuel junk pk m0 sm c : (1 <= length sm)%nat -> Z.of_nat (length sm) < 2 ^ 62 ->
  nth (length sm - 1) sm 0 = Z.of_nat c -> Z.of_nat c < max_seeds p -> (length sm < off_seeds p + c * slen + 1)%nat ->
  crypto_sign_open X p fuel junk m0 sm (Z.of_nat (length sm)) pk = UB.
Proof.
  intros HL H62 HN HC HS. unfold crypto_sign_open. pose proof (wf_max_byte p wf).
  assert (LAST : u64 (Z.of_nat (length sm) - 1) = Z.of_nat (length sm - 1)) by (unfold u64; rewrite Z.mod_small; lia).
  rewrite LAST. destruct (Z.ltb_spec (Z.of_nat (length sm - 1)) (Z.of_nat (length sm))); [|lia].
  rewrite Nat2Z.id. rewrite (get_ok _ _ 0) by lia. cbn [bind]. rewrite HN.
  destruct (Z.leb_spec (max_seeds p) (Z.of_nat c)); [lia|]. rewrite sig_len_val by lia.
  assert (U : u64 (Z.of_nat (length sm) - (Z.of_nat (off_seeds p) + Z.of_nat c * Z.of_nat slen + 1)) =
      Z.of_nat (length sm) - (Z.of_nat (off_seeds p) + Z.of_nat c * Z.of_nat slen + 1) + 2 ^ 64).
  { unfold u64. pose proof mono_bytes_le. pose proof (wf_W p wf). pose proof (wf_T p wf).
    assert (seed_len p <= 32)%nat by (unfold seed_len; destruct (p_cat p); lia).
    rewrite <- (Z.mod_add _ 1) by lia. rewrite Z.mod_small; unfold off_seeds, hash_len in *; nia. }
  rewrite U.
  assert (Z.of_nat (off_seeds p) + Z.of_nat c * Z.of_nat slen + 1 <= 2 ^ 32).
  { pose proof mono_bytes_le. pose proof (wf_W p wf). pose proof (wf_T p wf).
    assert (seed_len p <= 32)%nat by (unfold seed_len; destruct (p_cat p); lia). unfold off_seeds, hash_len. nia. }
  destruct (Z.leb_spec (Z.of_nat (length sm) - (Z.of_nat (off_seeds p) + Z.of_nat c * Z.of_nat slen + 1) + 2 ^ 64) (Z.of_nat (length sm))); [lia|].
  auto.
Qed.

(** *** Malleability *)

(** Announce one more seed: insert [slen] arbitrary bytes before the count byte. *)
Definition announce_more (sm pad : list Z) : list Z :=
  firstn (length sm - 1) sm ++ pad ++ [nth (length sm - 1) sm 0 + 1].

Lemma open_announce fuel junk pk m0 sm pad m1 mlen :
  bytes sm -> Z.of_nat (length sm) + 32 < 2 ^ 64 -> (1 <= length sm)%nat ->
  length pad = slen -> nth (length sm - 1) sm 0 + 1 < max_seeds p ->
  crypto_sign_open X p fuel junk m0 sm (Z.of_nat (length sm)) pk = Ok (0, m1, Some mlen) ->
  crypto_sign_open X p fuel junk m0 (announce_more sm pad) (Z.of_nat (length (announce_more sm pad))) pk = Ok (0, m1, Some mlen).
Proof.
  intros HB H64 HL HP HC. unfold crypto_sign_open. pose proof (wf_max_byte p wf).
  assert (S32 : (seed_len p <= 32)%nat) by (unfold seed_len; destruct (p_cat p); lia).
  assert (BC : is_byte (nth (length sm - 1) sm 0)).
  { unfold bytes in HB. rewrite Forall_forall in HB. apply HB. apply nth_In. lia. }
  unfold is_byte in BC. destruct (Z_of_nat_complete (nth (length sm - 1) sm 0)) as (c & Ec); [lia|]. rewrite Ec in *.
  assert (LF : length (firstn (length sm - 1) sm) = (length sm - 1)%nat) by (rewrite firstn_length; lia).
  assert (LA : length (announce_more sm pad) = (length sm + slen)%nat).
  { unfold announce_more. rewrite !app_length, LF, HP. cbn [length]. lia. }
  assert (NA : nth (length sm + slen - 1) (announce_more sm pad) 0 = Z.of_nat c + 1).
  { unfold announce_more. rewrite app_nth2 by lia. rewrite app_nth2 by lia. rewrite LF, HP, Ec.
    replace (length sm + slen - 1 - (length sm - 1) - slen)%nat with 0%nat by lia. auto. }
  assert (L1 : u64 (Z.of_nat (length sm) - 1) = Z.of_nat (length sm - 1)) by (unfold u64; rewrite Z.mod_small; lia).
  assert (L2 : u64 (Z.of_nat (length sm + slen) - 1) = Z.of_nat (length sm + slen - 1)) by (unfold u64; rewrite Z.mod_small; lia).
  rewrite LA, L1, L2, !Nat2Z.id.
  destruct (Z.ltb_spec (Z.of_nat (length sm - 1)) (Z.of_nat (length sm))); [|lia].
  destruct (Z.ltb_spec (Z.of_nat (length sm + slen - 1)) (Z.of_nat (length sm + slen))); [|lia].
  rewrite (get_ok sm _ 0), (get_ok (announce_more sm pad) _ 0) by lia. cbn [bind]. rewrite Ec, NA.
  destruct (Z.leb_spec (max_seeds p) (Z.of_nat c)); [lia|].
  destruct (Z.leb_spec (max_seeds p) (Z.of_nat c + 1)); [lia|].
  rewrite !sig_len_val by lia.
  replace (Z.of_nat (length sm + slen) - (Z.of_nat (off_seeds p) + (Z.of_nat c + 1) * Z.of_nat slen + 1))
    with (Z.of_nat (length sm) - (Z.of_nat (off_seeds p) + Z.of_nat c * Z.of_nat slen + 1)) by lia.
  set (ml := u64 (Z.of_nat (length sm) - (Z.of_nat (off_seeds p) + Z.of_nat c * Z.of_nat slen + 1))).
  destruct (Z.leb_spec ml (Z.of_nat (length sm))); [|discriminate]. cbn [andb].
  destruct (Z.leb_spec ml (Z.of_nat (length m0))); [|discriminate].
  destruct (Z.leb_spec ml (Z.of_nat (length sm + slen))); [|lia]. cbn [andb].
  assert (ml0 : 0 <= ml) by (unfold ml, u64; apply Z.mod_pos_bound; lia).
  assert (CASE : ml = Z.of_nat (length sm) - (Z.of_nat (off_seeds p) + Z.of_nat c * Z.of_nat slen + 1)).
  { destruct (Z.lt_ge_cases (Z.of_nat (length sm)) (Z.of_nat (off_seeds p) + Z.of_nat c * Z.of_nat slen + 1)) as [Hs|Hs].
    - exfalso. assert (Z.of_nat (off_seeds p) + Z.of_nat c * Z.of_nat slen + 1 <= 2 ^ 32).
      { pose proof mono_bytes_le. pose proof (wf_W p wf). pose proof (wf_T p wf). unfold off_seeds, hash_len. nia. }
      assert (ml = Z.of_nat (length sm) - (Z.of_nat (off_seeds p) + Z.of_nat c * Z.of_nat slen + 1) + 2 ^ 64); [|lia].
      unfold ml, u64. rewrite <- (Z.mod_add _ 1) by lia. rewrite Z.mod_small; lia.
    - unfold ml, u64. rewrite Z.mod_small; lia. }
  rewrite !rd_ok by lia. cbn [bind skipn].
  assert (PRE : forall k, (k <= length sm - 1)%nat -> firstn k (announce_more sm pad) = firstn k sm).
  { intros k Hk. unfold announce_more. rewrite firstn_app, LF. replace (k - (length sm - 1))%nat with 0%nat by lia.
    cbn [firstn]. rewrite app_nil_r, firstn_firstn. f_equal. lia. }
  rewrite PRE by lia.
  destruct (wr m0 0 (firstn (Z.to_nat ml) sm)) as [m1'| |]; cbn [bind]; try discriminate.
  intros E. apply bind_ok in E. destruct E as (ok & EV & E).
  rewrite (LESS_verify_local X p fuel junk pk _ (skipn (Z.to_nat ml) sm) (skipn (Z.to_nat ml) (announce_more sm pad)) c ok); auto.
  - rewrite skipn_length. lia.
  - rewrite skipn_length. lia.
  - rewrite !firstn_skipn_comm. rewrite PRE by lia. auto.
Qed.

Lemma announce_more_neq sm pad : (1 <= length sm)%nat -> (1 <= length pad)%nat -> announce_more sm pad <> sm.
Proof.
  intros H1 H2 E. apply (f_equal (@length Z)) in E. unfold announce_more in E.
  rewrite !app_length, firstn_length in E. cbn [length] in E. lia.
Qed.

(** Multiply all coefficients of one response by a constant. *)
Definition scale_action (lam : Z) (a : action) : action :=
  {| a_perm := a_perm a; a_coef := map (fun c => (lam * c) mod 127) (a_coef a) |}.

Lemma scale_coef lam a i : act_mem p a -> (i < K)%nat -> nthZ (a_coef (scale_action lam a)) i = (lam * nthZ (a_coef a) i) mod 127.
Proof.
  intros (A1 & A2) Hi. unfold nthZ. cbn [scale_action a_coef].
  rewrite (nth_indep _ 0 ((lam * 0) mod 127)) by (rewrite map_length; lia). apply (map_nth (fun c => (lam * c) mod 127)).
Qed.

Lemma scale_ok lam a : fq_unit lam -> act_ok p a -> act_ok p (scale_action lam a).
Proof.
  intros HL [A1 A2 A3 A4]. constructor; auto.
  - destruct A1. split; auto. cbn [scale_action a_coef]. rewrite map_length. auto.
  - intros i Hi. rewrite scale_coef by auto. specialize (A4 i Hi). unfold fq_unit in *.
    assert ((lam * nthZ (a_coef a) i) mod 127 <> 0); [|pose proof (Z.mod_pos_bound (lam * nthZ (a_coef a) i) 127); lia].
    intros C. assert (C' : lam * nthZ (a_coef a) i == 0) by (apply cong_iff; auto).
    apply cong_mul0 in C'. { apply cong_eq in C'; unfold fq; lia. }
    intros D. apply cong_eq in D; unfold fq; lia.
Qed.

Lemma sign_verify_scaled fk fs fv junk sk pk m sig num tree c fullG acts Vs fws fl u a lam buf :
  honest_key X p fk sk pk -> signed X p fs sk m sig num tree c fullG acts Vs fws fl -> (fs <= fv)%nat ->
  (u < pW p)%nat -> fq_unit lam -> decodes p (sig_chunk p sig u) a ->
  compress_monom_action p (sig_chunk p sig u) (scale_action lam a) = Ok buf ->
  exists sig', wr sig (off_monom p u) buf = Ok sig' /\ (lam <> 1 -> sig' <> sig) /\
    LESS_verify X p fv junk pk m sig' = Ok 1.
Proof.
  intros HK HS Hf Hu HL HD HC.
  pose proof HS as [G1 G2 G3 G4 G5 G6 G7 G8 G9 G10 G11 G12 G13 G14 G15 G16 G17 GZ G18].
  pose proof (off_monom_fit p u Hu) as FIT.
  assert (OD : (off_digest p + hash_len p = off_seeds p)%nat) by (unfold off_seeds, off_digest; lia).
  assert (SS : sizeof_sign p = (off_seeds p + (Z.to_nat (p_maxbytes p) + 1))%nat) by reflexivity.
  (* the slot is used by some round *)
  assert (SLOT : exists t, (t < pT p)%nat /\ nz fws t = true /\ cnt (nz fws) t = u).
  { destruct G10 as (C1 & C2 & C3). rewrite weight_cnt, C1 in C2. destruct (cnt_nth_enum (nz fws) (pT p) u 0%nat) as (X1 & X2 & X3); [lia|]. exists (nth u (enum (nz fws) (pT p)) 0%nat). auto. }
  destruct SLOT as (t0 & Ht0 & Hn0 & Eu).
  destruct (G18 t0 Ht0 Hn0) as (Q0 & b0 & R1 & R2 & R3 & R4 & _). rewrite Eu in R4.
  pose proof (decodes_det p _ _ _ HD R4) as ->.
  assert (Ls : length (sig_chunk p sig u) = mono_bytes p) by (unfold sig_chunk; rewrite firstn_length, skipn_length; lia).
  assert (Bs : bytes (sig_chunk p sig u)) by (apply Forall_firstn, Forall_skipn; auto).
  destruct (action_coding p wf _ _ Bs Ls (scale_ok lam b0 HL R3)) as (buf' & E & B1 & B2 & B3).
  rewrite HC in E. injection E as <-.
  exists (firstn (off_monom p u) sig ++ buf ++ skipn (off_monom p u + length buf) sig).
  rewrite wr_ok by lia. split; auto.
  set (sig' := firstn (off_monom p u) sig ++ buf ++ skipn (off_monom p u + length buf) sig).
  assert (L' : length sig' = sizeof_sign p) by (unfold sig'; rewrite wr_length; lia).
  assert (CH : sig_chunk p sig' u = buf).
  { unfold sig_chunk. rewrite <- B1. unfold sig'. apply slice_wr_same. lia. }
  assert (OTH : forall o n, (o + n <= off_monom p u \/ off_monom p u + mono_bytes p <= o)%nat ->
    firstn n (skipn o sig') = firstn n (skipn o sig)).
  { intros o n Ho. unfold sig'. apply (slice_wr_other _ _ _ _ _ 0); lia. }
  split.
  { intros Hl Es. assert (D2 : decodes p (sig_chunk p sig' u) (scale_action lam b0)) by (rewrite CH; auto).
    rewrite Es in D2. pose proof (decodes_det p _ _ _ D2 R4) as Ea.
    pose proof (wf_K p wf) as HKp. pose proof (scale_coef lam b0 0 (ao_mem p b0 R3) ltac:(lia)) as SCo. rewrite Ea in SCo.
    pose proof (ao_coef p b0 R3 0 ltac:(lia)) as U0. unfold fq_unit in *.
    assert (DV : (lam - 1) * nthZ (a_coef b0) 0 == 0).
    { apply cong_iff. replace ((lam - 1) * nthZ (a_coef b0) 0) with (lam * nthZ (a_coef b0) 0 - nthZ (a_coef b0) 0) by ring.
      rewrite Zminus_mod, <- SCo. rewrite (Z.mod_small (nthZ (a_coef b0) 0) 127) by lia. rewrite Z.sub_diag. reflexivity. }
    apply cong_mul0 in DV. { apply cong_eq in DV; unfold fq; lia. }
    intros D. apply cong_eq in D; unfold fq; lia. }
  apply (sign_verify_gen X p wf LX fk fs fv junk sk pk m sig num tree c fullG acts Vs fws fl HK HS Hf sig').
  - apply Forall_wr; auto.
  - lia.
  - unfold sig_salt. rewrite <- (skipn_O sig'), <- (skipn_O sig). apply OTH. left. unfold off_monom. lia.
  - unfold sig_digest. apply OTH. right. lia.
  - rewrite OTH by lia. auto.
  - intros t Ht Hn. destruct (G18 t Ht Hn) as (Q & b & T1 & T2 & T3 & T4 & _).
    destruct (Nat.eq_dec (cnt (nz fws) t) u) as [Ec|Ec].
    + exists lam, Q, (scale_action lam b). rewrite Ec in *. pose proof (decodes_det p _ _ _ T4 R4) as ->.
      split. { intros C. unfold fq_unit in HL. apply cong_eq in C; unfold fq; lia. }
      split; auto. split.
      { intros k s Hk Hs Ek. destruct (T2 k s Hk Hs Ek) as [X1 X2]. split; auto.
        rewrite scale_coef by (auto; apply R3). rewrite cong_mod. rewrite X2. rewrite Z.mul_1_l. reflexivity. }
      split. { apply scale_ok; auto. } rewrite CH. auto.
    + exists 1, Q, b. split. { apply one_nz. } split; auto. split; auto. split; auto.
      unfold sig_chunk. rewrite OTH. exact T4.
      unfold off_monom. destruct (Nat.lt_ge_cases (cnt (nz fws) t) u); [left|right]; nia.
Qed.

End A.
