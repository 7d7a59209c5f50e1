(** C24, C25: the hash functions. *)
From Verif Require Import Base BaseLemmas Params ParamsProofs Prim Less Sign Keccak KeccakSpec KeccakProofs Fips202 Fips202Proofs Fips202Inst
  PropScheme.

(** A state is 25 lanes of 64 bits; an incremental context has also a number of bytes below the rate. *)
Definition valid_state (st : list Z) : Prop := length st = 25%nat /\ Forall (fun a => 0 <= a < 2 ^ 64) st.
Definition valid_ctx (r : nat) (c : incctx) : Prop := valid_state (fst c) /\ (snd c < r)%nat.

(** *** C24 *)

(** Absorbing the chunks one after the other. *)
Fixpoint absorb_chunks (r : nat) (c : incctx) (chunks : list (list Z)) : res incctx :=
  match chunks with
  | [] => Ok c
  | m :: l => c' <- keccak_inc_absorb r c m ;; absorb_chunks r c' l
  end.

(** Filling the buffers one after the other. *)
Fixpoint squeeze_buffers (r : nat) (c : incctx) (bufs : list (list Z)) : res (list (list Z) * incctx) :=
  match bufs with
  | [] => Ok ([], c)
  | h :: l => ' (h', c') <- keccak_inc_squeeze r h (length h) c ;; ' (l', c'') <- squeeze_buffers r c' l ;; Ok (h' :: l', c'')
  end.

Theorem C24_absorb : forall r c, (1 <= r <= 200)%nat -> valid_ctx r c ->
  forall chunks, exists c', valid_ctx r c' /\
    absorb_chunks r c chunks = Ok c' /\ keccak_inc_absorb r c (concat chunks) = Ok c'.
Proof.
  intros r c Hr Hc chunks. exists (fold_left (astep r) (concat chunks) c).
  assert (R1 : (1 <= r)%nat) by lia. assert (R2 : (r <= 200)%nat) by lia.
  split; [apply (astep_fold_ok r R1 R2 (concat chunks) c Hc)|].
  split; [|apply (inc_absorb_ok r R1 R2 c _ Hc)].
  revert c Hc. induction chunks as [|m l IH]; intros c Hc; cbn [absorb_chunks concat]. { reflexivity. }
  rewrite (inc_absorb_ok r R1 R2 c m Hc). cbn [bind]. rewrite IH, fold_left_app; auto. apply (astep_fold_ok r R1 R2 m c Hc).
Qed.

Theorem C24_squeeze : forall r c, (1 <= r <= 200)%nat -> valid_ctx r c ->
  forall bufs, exists outs c', valid_ctx r c' /\ map (@length Z) outs = map (@length Z) bufs /\
    squeeze_buffers r c bufs = Ok (outs, c') /\
    keccak_inc_squeeze r (concat bufs) (length (concat bufs)) c = Ok (concat outs, c').
Proof.
  intros r c Hr Hc bufs. assert (R1 : (1 <= r)%nat) by lia. assert (R2 : (r <= 200)%nat) by lia.
  assert (G : exists outs, map (@length Z) outs = map (@length Z) bufs /\ concat outs = fst (sq r (length (concat bufs)) c) /\
    squeeze_buffers r c bufs = Ok (outs, snd (sq r (length (concat bufs)) c))).
  { revert c Hc. induction bufs as [|h l IH]; intros c Hc; cbn [squeeze_buffers concat]. { exists []. auto. }
    rewrite (inc_squeeze_ok r R1 R2 h (length h) c Hc) by auto. rewrite skipn_all, app_nil_r. cbn [bind].
    destruct (IH (snd (sq r (length h) c))) as (outs & E1 & E2 & E3). { apply (sq_ok r R1 R2 _ c Hc). }
    rewrite E3. cbn [bind]. exists (fst (sq r (length h) c) :: outs). rewrite app_length, sq_plus. cbn [fst snd map concat].
    rewrite E1, E2, sq_length; auto. }
  destruct G as (outs & E1 & E2 & E3). exists outs, (snd (sq r (length (concat bufs)) c)).
  split. { apply (sq_ok r R1 R2 _ c Hc). } split; auto. split; auto.
  rewrite (inc_squeeze_ok r R1 R2 _ _ c Hc) by auto. rewrite skipn_all, app_nil_r, E2. auto.
Qed.

(** A context in the middle of a block; the rate is 5 so that chunks and requests span blocks. *)
Definition ex_ctx : incctx := (0x123456789abcdef :: repeat 77 24, 3%nat).
Example C24_example : valid_ctx 5 ex_ctx /\
  absorb_chunks 5 ex_ctx [[1; 2]; []; [3; 4; 5; 6; 7; 8; 9]; [10]] = keccak_inc_absorb 5 ex_ctx [1; 2; 3; 4; 5; 6; 7; 8; 9; 10] /\
  (' (outs, c) <- squeeze_buffers 5 ex_ctx [[0]; [0; 0; 0]; []; repeat 0 7] ;; Ok (concat outs, c)) =
    keccak_inc_squeeze 5 (repeat 9 11) 11 ex_ctx.
Proof.
  split; [|split; vm_compute; reflexivity].
  split; [|cbn; lia]. split; [reflexivity|]. repeat (constructor; [lia|]). constructor.
Qed.

(** *** C25 *)

(** The 1600 bits of a state, in the order of FIPS 202, 3.1.2, are permuted by Keccak-f[1600]. *)
Definition state_bits (st : list Z) (i : nat) : bool := Z.testbit (nth (i / 64) st 0) (Z.of_nat (i mod 64)).

Theorem C25_permutation : forall st, valid_state st ->
  exists st', StatePermute st = Ok st' /\ valid_state st' /\
    forall i, (i < 1600)%nat -> state_bits st' i = keccak_f (state_bits st) i.
Proof. intros st H. exists (perm st). exact (StatePermute_ok st H). Qed.

(** [d] is the byte string with the bits [b]. *)
Definition byte_string (d : list Z) (n : nat) (b : list bool) : Prop := length d = n /\ bytes d /\ bits_of d = b.

Lemma byte_string_unique d d' n b : byte_string d n b -> byte_string d' n b -> d = d'.
Proof.
  intros (A1 & A2 & A3) (B1 & B2 & B3). apply (list_ext 0); [lia|]. intros i Hi. apply Z.bits_inj'. intros k Hk.
  assert (Ha : is_byte (nth i d 0)) by (unfold bytes in A2; rewrite Forall_forall in A2; apply A2, nth_In; auto).
  assert (Hb : is_byte (nth i d' 0)) by (unfold bytes in B2; rewrite Forall_forall in B2; apply B2, nth_In; lia).
  pose proof (bits_of_nth 1 ltac:(lia) ltac:(lia)) as BN. pose proof (byte_high 1 ltac:(lia) ltac:(lia)) as BH.
  destruct (Z.lt_ge_cases k 8) as [L|L].
  - assert (E : mbit d (i * 8 + Z.to_nat k) = mbit d' (i * 8 + Z.to_nat k)) by (rewrite <- !BN, A3, B3; auto).
    unfold mbit in E. rewrite (Nat.add_comm (i * 8)) in E. rewrite Nat.div_add, Nat.mod_add, Nat.div_small, Nat.mod_small in E by lia.
    cbn [Nat.add] in E. rewrite Z2Nat.id in E by lia. exact E.
  - rewrite !BH by auto. auto.
Qed.

Lemma sq_string r p suffix M n : (1 <= r)%nat -> (r <= 200)%nat -> domain p suffix -> bytes M ->
  byte_string (fst (sq r n (ffinal r p (fold_left (astep r) M keccak_inc_init)))) n (sponge (8 * r) (bits_of M ++ suffix) (8 * n)).
Proof. intros R1 R2 HD HB. split. { apply sq_length; auto. } split. apply sq_bytes. apply sq_is_sponge; auto. Qed.

Lemma one_shot_ok r p suffix out n M : (1 <= r)%nat -> (r <= 200)%nat -> domain p suffix -> bytes M -> (n <= length out)%nat ->
  exists d, one_shot r p out n M = Ok (d ++ skipn n out) /\ byte_string d n (sponge (8 * r) (bits_of M ++ suffix) (8 * n)).
Proof.
  intros R1 R2 HD HB HN. unfold one_shot.
  assert (HI : ctx_ok r keccak_inc_init) by (split; [apply lanes_init|cbn; lia]).
  rewrite inc_absorb_ok by auto. cbn [bind]. rewrite inc_finalize_ok by (auto using astep_fold_ok). cbn [bind].
  rewrite inc_squeeze_ok by (auto using astep_fold_ok, ffinal_ok). cbn [bind].
  eexists. split; [reflexivity|]. apply sq_string; auto.
Qed.

Theorem C25_shake : forall out n M, bytes M -> (n <= length out)%nat ->
  (exists d, shake128 out n M = Ok (d ++ skipn n out) /\ byte_string d n (SHAKE128 M (8 * n))) /\
  (exists d, shake256 out n M = Ok (d ++ skipn n out) /\ byte_string d n (SHAKE256 M (8 * n))).
Proof.
  intros out n M HB HN.
  split; [apply (one_shot_ok SHAKE128_RATE 31 [true; true; true; true])|apply (one_shot_ok SHAKE256_RATE 31 [true; true; true; true])];
    auto; try (apply Nat.leb_le; reflexivity); right; auto.
Qed.

Theorem C25_sha3 : forall out M, bytes M ->
  ((32 <= length out)%nat -> exists d, sha3_256 out M = Ok (d ++ skipn 32 out) /\ byte_string d 32 (SHA3_256 M)) /\
  ((48 <= length out)%nat -> exists d, sha3_384 out M = Ok (d ++ skipn 48 out) /\ byte_string d 48 (SHA3_384 M)) /\
  ((64 <= length out)%nat -> exists d, sha3_512 out M = Ok (d ++ skipn 64 out) /\ byte_string d 64 (SHA3_512 M)).
Proof.
  intros out M HB.
  split; [|split]; intros HL;
    [apply (one_shot_ok SHA3_256_RATE 6 [false; true])|apply (one_shot_ok SHA3_384_RATE 6 [false; true])|apply (one_shot_ok SHA3_512_RATE 6 [false; true])];
    auto; try (apply Nat.leb_le; reflexivity); left; auto.
Qed.

(** The incremental interface, with any chunks; [t] is the content of the local block of sha3_..._inc_finalize. *)
Lemma absorb_init r chunks : (1 <= r)%nat -> (r <= 200)%nat ->
  ctx_ok r (fold_left (astep r) (concat chunks) keccak_inc_init) /\
  absorb_chunks r keccak_inc_init chunks = Ok (fold_left (astep r) (concat chunks) keccak_inc_init).
Proof.
  intros R1 R2. assert (HI : ctx_ok r keccak_inc_init) by (split; [apply lanes_init|cbn; lia]).
  destruct (C24_absorb r keccak_inc_init (conj R1 R2) HI chunks) as (c' & V & E1 & E2).
  rewrite inc_absorb_ok in E2 by auto. injection E2 as <-. split; auto.
Qed.

Lemma sha3_incremental r n out t chunks : (1 <= r)%nat -> (r <= 200)%nat -> (n <= r)%nat -> bytes (concat chunks) ->
  length t = r -> (n <= length out)%nat ->
  exists d, (c <- absorb_chunks r keccak_inc_init chunks ;; sha3_inc_finalize r n out t c) = Ok (d ++ skipn n out) /\
    byte_string d n (sponge (8 * r) (bits_of (concat chunks) ++ [false; true]) (8 * n)).
Proof.
  intros R1 R2 HN HB HT HO. destruct (absorb_init r chunks R1 R2) as [V E]. rewrite E. cbn [bind].
  rewrite sha3_inc_finalize_ok by auto. eexists. split; [reflexivity|]. apply sq_string; auto. left. auto.
Qed.

Theorem C25_sha3_incremental : forall out t chunks, bytes (concat chunks) ->
  (length t = SHA3_256_RATE -> (32 <= length out)%nat -> exists d,
    (c <- absorb_chunks SHA3_256_RATE keccak_inc_init chunks ;; sha3_256_inc_finalize out t c) = Ok (d ++ skipn 32 out) /\
    byte_string d 32 (SHA3_256 (concat chunks))) /\
  (length t = SHA3_384_RATE -> (48 <= length out)%nat -> exists d,
    (c <- absorb_chunks SHA3_384_RATE keccak_inc_init chunks ;; sha3_384_inc_finalize out t c) = Ok (d ++ skipn 48 out) /\
    byte_string d 48 (SHA3_384 (concat chunks))) /\
  (length t = SHA3_512_RATE -> (64 <= length out)%nat -> exists d,
    (c <- absorb_chunks SHA3_512_RATE keccak_inc_init chunks ;; sha3_512_inc_finalize out t c) = Ok (d ++ skipn 64 out) /\
    byte_string d 64 (SHA3_512 (concat chunks))).
Proof.
  intros out t chunks HB.
  split; [|split]; intros HT HO;
    [apply (sha3_incremental SHA3_256_RATE 32)|apply (sha3_incremental SHA3_384_RATE 48)|apply (sha3_incremental SHA3_512_RATE 64)];
    auto; apply Nat.leb_le; reflexivity.
Qed.

Lemma shake_incremental r out n chunks : (1 <= r)%nat -> (r <= 200)%nat -> bytes (concat chunks) -> (n <= length out)%nat ->
  exists d c', (c <- absorb_chunks r keccak_inc_init chunks ;; c <- keccak_inc_finalize r c 31 ;; keccak_inc_squeeze r out n c) =
      Ok (d ++ skipn n out, c') /\
    byte_string d n (sponge (8 * r) (bits_of (concat chunks) ++ [true; true; true; true]) (8 * n)).
Proof.
  intros R1 R2 HB HO. destruct (absorb_init r chunks R1 R2) as [V E]. rewrite E. cbn [bind].
  rewrite inc_finalize_ok by auto. cbn [bind]. rewrite inc_squeeze_ok by (auto using ffinal_ok).
  do 2 eexists. split; [reflexivity|]. apply sq_string; auto. right. auto.
Qed.

Theorem C25_shake_incremental : forall out n chunks, bytes (concat chunks) -> (n <= length out)%nat ->
  (exists d c', (c <- absorb_chunks SHAKE128_RATE keccak_inc_init chunks ;; c <- keccak_inc_finalize SHAKE128_RATE c 31 ;;
      keccak_inc_squeeze SHAKE128_RATE out n c) = Ok (d ++ skipn n out, c') /\ byte_string d n (SHAKE128 (concat chunks) (8 * n))) /\
  (exists d c', (c <- absorb_chunks SHAKE256_RATE keccak_inc_init chunks ;; c <- keccak_inc_finalize SHAKE256_RATE c 31 ;;
      keccak_inc_squeeze SHAKE256_RATE out n c) = Ok (d ++ skipn n out, c') /\ byte_string d n (SHAKE256 (concat chunks) (8 * n))).
Proof.
  intros out n chunks HB HO.
  split; [apply (shake_incremental SHAKE128_RATE)|apply (shake_incremental SHAKE256_RATE)]; auto; apply Nat.leb_le; reflexivity.
Qed.

(** shake128_absorb / shake256_absorb followed by squeezing [n] blocks. *)
Lemma shake_blocks r out n M : (1 <= r)%nat -> (r <= 200)%nat -> bytes M -> (n * r <= length out)%nat ->
  exists d s', (s <- shake_absorb r M ;; keccak_squeezeblocks r out 0 n s) = Ok (d ++ skipn (n * r) out, s') /\
    byte_string d (n * r) (sponge (8 * r) (bits_of M ++ [true; true; true; true]) (8 * (n * r))).
Proof.
  intros R1 R2 HB HO. unfold shake_absorb. rewrite keccak_absorb_ok by (auto; apply lanes_init). cbn [bind].
  assert (HF : ctx_ok r (ffinal r 31 (fold_left (astep r) M keccak_inc_init))).
  { apply ffinal_ok; auto. apply astep_fold_ok; auto. split; [apply lanes_init|cbn; lia]. }
  change (repeat 0 25, 0%nat) with keccak_inc_init.
  pose proof (sq_string r 31 [true; true; true; true] M (n * r) R1 R2) as SS.
  assert (E0 : ffinal r 31 (fold_left (astep r) M keccak_inc_init) = (fst (ffinal r 31 (fold_left (astep r) M keccak_inc_init)), 0%nat)).
  { destruct (fold_left (astep r) M keccak_inc_init). reflexivity. }
  rewrite E0 in SS. destruct (squeezeblocks_ok r R1 R2 n out 0 _ (proj1 HF)) as [E _]. { lia. }
  rewrite E. do 2 eexists. split; [reflexivity|]. apply SS; auto. right. auto.
Qed.

Theorem C25_shake_blocks : forall out n M, bytes M ->
  ((n * SHAKE128_RATE <= length out)%nat -> exists d s',
    (s <- shake_absorb SHAKE128_RATE M ;; keccak_squeezeblocks SHAKE128_RATE out 0 n s) = Ok (d ++ skipn (n * SHAKE128_RATE) out, s') /\
    byte_string d (n * SHAKE128_RATE) (SHAKE128 M (8 * (n * SHAKE128_RATE)))) /\
  ((n * SHAKE256_RATE <= length out)%nat -> exists d s',
    (s <- shake_absorb SHAKE256_RATE M ;; keccak_squeezeblocks SHAKE256_RATE out 0 n s) = Ok (d ++ skipn (n * SHAKE256_RATE) out, s') /\
    byte_string d (n * SHAKE256_RATE) (SHAKE256 M (8 * (n * SHAKE256_RATE)))).
Proof.
  intros out n M HB.
  split; intros HO; [apply (shake_blocks SHAKE128_RATE)|apply (shake_blocks SHAKE256_RATE)]; auto; apply Nat.leb_le; reflexivity.
Qed.

(** 200 bytes, the digests being those of another implementation. *)
Definition msg200 : list Z := map (fun i => Z.of_nat i * 7 mod 256) (seq 0 200).
Definition SHA200 : list Z := [110; 86; 67; 80; 45; 29; 123; 222; 11; 231; 28; 1; 47; 144; 85; 156; 180; 73; 91; 242; 126; 83; 241; 34; 10; 138; 164; 100; 220; 226; 253; 82].
Definition SHAKE200 : list Z := [199; 72; 102; 138; 71; 60; 132; 126; 238; 47; 152; 94; 255; 239; 201; 102; 51; 116].
Definition SHAKE128_200 : list Z := [26; 23; 165; 60; 63; 8; 113; 13; 208; 208; 45; 66; 167; 213; 249; 39; 131; 182].
Example C25_example :
  sha3_256 (repeat 9 34) msg200 = Ok (SHA200 ++ [9; 9]) /\
  (c <- absorb_chunks SHA3_256_RATE keccak_inc_init [firstn 150 msg200; skipn 150 msg200] ;;
   sha3_256_inc_finalize (repeat 9 34) (repeat 1 136) c) = Ok (SHA200 ++ [9; 9]) /\
  shake256 (repeat 9 20) 18 msg200 = Ok (SHAKE200 ++ [9; 9]) /\ shake128 (repeat 9 20) 18 msg200 = Ok (SHAKE128_200 ++ [9; 9]).
Proof. repeat split; vm_compute; reflexivity. Qed.

(** The generator and the hash used by LESS are SHAKE128 or SHAKE256 and SHA-3 with digests of 2 lambda bits. *)
Theorem C25_less_primitives : forall p seed m n, bytes seed -> bytes m ->
  byte_string (fst (x_squeeze (lessX p) n (x_init (lessX p) seed))) n
    (match p_cat p with Cat1 => SHAKE128 seed (8 * n) | _ => SHAKE256 seed (8 * n) end) /\
  byte_string (h_final (lessX p) (h_absorb (lessX p) (h_init (lessX p)) m)) (hash_len p)
    (match p_cat p with Cat1 => SHA3_256 m | Cat3 => SHA3_384 m | Cat5 => SHA3_512 m end).
Proof.
  intros p seed m n H1 H2. split.
  - change (byte_string (fst (s_squeeze (xof_rate p) n (s_final _ 31 (s_absorb _ (s_init _) seed)))) n
      (match p_cat p with Cat1 => SHAKE128 seed (8 * n) | _ => SHAKE256 seed (8 * n) end)).
    rewrite (proj1 (s_squeeze_eq _ n _)), s_final_eq, s_absorb_eq. cbn [s_init proj1_sig].
    assert (SS := sq_string (xof_rate p) 31 [true; true; true; true] seed n (rate_1 _) (rate_2 _) (or_intror (conj eq_refl eq_refl)) H1).
    unfold xof_rate in *. destruct (p_cat p); exact SS.
  - change (byte_string (s_digest (hash_rate p) (hash_len p) (s_absorb _ (s_init _) m)) (hash_len p)
      (match p_cat p with Cat1 => SHA3_256 m | Cat3 => SHA3_384 m | Cat5 => SHA3_512 m end)).
    rewrite s_digest_eq by apply hash_fits. rewrite s_absorb_eq. cbn [s_init proj1_sig].
    assert (SS := sq_string (hash_rate p) 6 [false; true] m (hash_len p) (rate_1 _) (rate_2 _) (or_introl (conj eq_refl eq_refl)) H2).
    unfold hash_rate, hash_len, seed_len in *. destruct (p_cat p); exact SS.
Qed.

(** C01 for the seven parameter sets with these primitives; all other theorems about [lawful] primitives apply too. *)
Theorem C01_less : forall p, In p less_params ->
  forall fk junk0 rng0 sk0 pk0 sk pk rng1, length sk0 = sizeof_sk p -> length pk0 = sizeof_pk p -> bytes pk0 ->
    LESS_keygen (lessX p) p fk junk0 rng0 sk0 pk0 = Ok (sk, pk, rng1) ->
  forall fs junk rng m sig0 sig num rng', length sig0 = sizeof_sign p -> bytes sig0 ->
    LESS_sign (lessX p) p fs junk rng sk m sig0 = Ok (sig, num, rng') ->
  forall fv junk', (fs <= fv)%nat -> LESS_verify (lessX p) p fv junk' pk m sig = Ok 1.
Proof.
  intros p Hp fk junk0 rng0 sk0 pk0 sk pk rng1 A1 A2 A3 A4. pose proof less_params_wf as W. rewrite Forall_forall in W.
  apply (C01_correct (lessX p) p (W p Hp) (lessX_lawful p) fk sk pk). exists junk0, rng0, rng1, sk0, pk0. auto.
Qed.

Print Assumptions C24_absorb.
Print Assumptions C24_squeeze.
Print Assumptions C25_permutation.
Print Assumptions C25_shake.
Print Assumptions C25_sha3.
Print Assumptions C25_sha3_incremental.
Print Assumptions C25_shake_incremental.
Print Assumptions C25_shake_blocks.
Print Assumptions C25_less_primitives.
Print Assumptions C01_less.
