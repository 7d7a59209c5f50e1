(** Proofs about the main function of the test vector program. *)
From Coq Require Import String Ascii.
From Verif Require Import Base BaseLemmas Params ParamsProofs Prim Spec Less Sign LessSpec RoundProofs SeedTreeProofs TreeFacts SignerProofs VerifyProofs ApiProofs PropApi PropSpec
  KatRng KatMain KatSpec KatRngProofs KatTextProofs.
Local Open Scope list_scope.

Lemma line_app s v r : line s v ++ r = text s ++ v ++ 10 :: r.
Proof. unfold line. rewrite <- !app_assoc. reflexivity. Qed.

Section K.
Variable X : prim.
Variable p : params.
Hypothesis wf : wf_params p.
Hypothesis LX : lawful X (hash_len p).
Lemma sign_size_small : Z.of_nat (sizeof_sign p) < 2 ^ 32.
Proof using wf.
  pose proof (mono_bytes_le p wf) as MB. pose proof (wf_W p wf). pose proof (wf_T p wf). pose proof (wf_max_byte p wf) as MX. unfold max_seeds in MX.
  assert (S : (16 <= seed_len p <= 32)%nat) by (unfold seed_len; destruct (p_cat p); lia).
  assert (p_maxbytes p < 256 * Z.of_nat (seed_len p)). { pose proof (Z.div_mod (p_maxbytes p) (Z.of_nat (seed_len p)) ltac:(lia)). pose proof (Z.mod_pos_bound (p_maxbytes p) (Z.of_nat (seed_len p)) ltac:(lia)). nia. }
  unfold sizeof_sign, off_seeds, seed_storage_len, hash_len. nia.
Qed.

Variable fuel : nat.
Variable junk : nat -> nat -> Z.

(** What follows the message in a request. *)
Definition leftover : list Z := line "pk =" [] ++ line "sk =" [] ++ line "smlen =" [] ++ line "sm =" [] ++ [10].

Lemma sign_run rng m sk : length sk = sizeof_sk p -> bytes m -> Z.of_nat (length m + sizeof_sign p) < 2 ^ 64 ->
  wp (crypto_sign X p fuel junk rng (repeat 0 (length m + sizeof_sign p)) m sk) (fun '(ret, sm, smlen, rng') =>
    ret = 0 /\ exists sig num, signs X p rng sk m (repeat 0 (sizeof_sign p)) sig num rng' /\ bytes sig /\ length sig = sizeof_sign p /\ sm = m ++ sig /\
      nth (off_seeds p + num * seed_len p) sig 0 = Z.of_nat num /\ Z.of_nat num <= max_seeds p /\
      (off_seeds p + num * seed_len p + 1 <= sizeof_sign p)%nat /\ smlen = Z.of_nat (length m + (off_seeds p + num * seed_len p + 1))).
Proof using wf LX.
  intros Hsk Hm HL. set (sm0 := repeat 0 (length m + sizeof_sign p)).
  assert (L0 : length sm0 = (length m + sizeof_sign p)%nat) by apply repeat_length.
  pose proof (zeros_bytes (length m + sizeof_sign p)) as B0. fold sm0 in B0.
  unfold crypto_sign. rewrite wr_ok by lia. cbn [bind]. rewrite firstn_O, Nat.add_0_l. cbn [app].
  assert (ES : skipn (length m) sm0 = repeat 0 (sizeof_sign p)).
  { unfold sm0. rewrite repeat_app, skipn_app, skipn_all2 by (rewrite repeat_length; lia). rewrite repeat_length, Nat.sub_diag. reflexivity. }
  rewrite ES. rewrite rd_ok by (rewrite app_length, repeat_length; lia). cbn [bind].
  rewrite skipn_app, skipn_all, Nat.sub_diag. cbn [app skipn]. rewrite firstn_all2 by (rewrite repeat_length; lia).
  pose proof (zeros_bytes (sizeof_sign p)) as BZ.
  pose proof (LESS_sign_spec X p wf LX fuel junk rng sk m (repeat 0 (sizeof_sign p)) Hsk (repeat_length _ _) BZ) as S.
  destruct (LESS_sign X p fuel junk rng sk m (repeat 0 (sizeof_sign p))) as [[[sig num] rng']| |] eqn:E; cbn [wp bind] in *; auto.
  destruct S as (tree & c & fullG & acts & Vs & fws & fl & HS).
  pose proof (sg_len _ _ _ _ _ _ _ _ _ _ _ _ _ _ HS) as SL. pose proof (sg_bytes _ _ _ _ _ _ _ _ _ _ _ _ _ _ HS) as SB.
  pose proof (sg_max _ _ _ _ _ _ _ _ _ _ _ _ _ _ HS) as SM.
  pose proof (sg_maxb _ _ _ _ _ _ _ _ _ _ _ _ _ _ HS) as SMb. pose proof (sg_count _ _ _ _ _ _ _ _ _ _ _ _ _ _ HS) as SC.
  assert (FIT : (off_seeds p + num * seed_len p + 1 <= sizeof_sign p)%nat) by (unfold sizeof_sign, seed_storage_len; lia).
  rewrite wr_ok by (rewrite app_length, repeat_length; lia). cbn [bind wp]. split; auto. exists sig, num.
  split. { apply (proj1 (C40_sign X p wf LX rng sk m (repeat 0 (sizeof_sign p)) sig num rng' Hsk (repeat_length _ _) BZ Hm) fuel junk E). }
  split; auto. split; auto. split.
  { rewrite firstn_app, firstn_all, Nat.sub_diag, firstn_O, app_nil_r, skipn_all2 by (rewrite app_length, repeat_length; lia). rewrite app_nil_r. reflexivity. }
  pose proof (wf_max_byte p wf). split; auto. split; auto. split; auto.
  unfold u32. rewrite (Z.mod_small (Z.of_nat num)) by lia. rewrite sig_len_val by (auto; lia). unfold u64. rewrite Z.mod_small by lia. lia.
Qed.

Lemma keypair_run rng pk0 sk0 : length pk0 = sizeof_pk p -> bytes pk0 -> length sk0 = sizeof_sk p ->
  wp (crypto_sign_keypair X p fuel junk rng pk0 sk0) (fun '(ret, pk, sk, rng') =>
    ret = 0 /\ generates X p rng sk pk rng' /\ length pk = sizeof_pk p /\ bytes pk /\ bytes sk /\ length sk = sizeof_sk p /\ api_keypair X p fuel sk pk).
Proof using wf LX.
  intros H1 H2 H3. pose proof (LESS_keygen_spec X p wf LX fuel junk rng sk0 pk0 H3 H1 H2) as S.
  assert (EQ : crypto_sign_keypair X p fuel junk rng pk0 sk0 = crypto_sign_keypair X p fuel junk rng pk0 sk0) by reflexivity.
  destruct (crypto_sign_keypair X p fuel junk rng pk0 sk0) as [[[[ret pk] sk] rng']| |] eqn:E; cbn [wp]; auto.
  - destruct (honest_keypair X p fuel junk rng rng' ret sk0 pk0 sk pk wf LX H3 H1 H2 E) as (-> & EK & HH & HL).
    split; auto. split. { apply (proj1 (C39_keygen X p wf LX rng sk pk rng') fuel junk sk0 pk0); auto. }
    destruct HH as [(csk & g0 & c & G & A1 & A2 & A3 & A4 & A5 & A6 & A7 & _)]. repeat split; auto.
    exists junk, rng, rng', 0, sk0, pk0. auto.
  - unfold crypto_sign_keypair in E. rewrite rd_ok in E by lia. cbn [bind skipn] in E. rewrite rd_ok in E by lia. cbn [bind skipn] in E.
    rewrite <- H1, <- H3, !firstn_all in E. destruct (LESS_keygen X p fuel junk rng sk0 pk0) as [[[sk1 pk1] rng1]| |] eqn:EK; cbn [bind wp] in *; try discriminate; auto.
    destruct S as [(csk & g0 & c & G & A1 & A2 & A3 & A4 & A5 & _)].
    assert (L1 : length sk1 = sizeof_sk p) by (rewrite A1, app_length; unfold sizeof_sk; lia).
    rewrite !wr_ok in E by lia. cbn [bind] in E. discriminate.
Qed.

Definition vector_size (m : list Z) : Prop := Z.of_nat (length m + sizeof_sign p) < 2 ^ 64.

Lemma fprintBstr_full S A n : length A = n -> (0 < n)%nat -> bytes A -> fprintBstr S A n = Ok (S ++ hexadecimal A ++ [newline]).
Proof. intros <- H1 H2. rewrite fprintBstr_ok; rewrite ?firstn_all; auto; lia. Qed.

Lemma FindMarker_at pre M rest : M <> [] -> (length M <= 49)%nat -> ~ In (hd 0 M) pre -> FindMarker (pre ++ M ++ rest) M = (1, rest).
Proof. intros H1 H2 H3. destruct M; [congruence|]. apply FindMarker_skip; auto. Qed.

(** [F] holds if the fuel does not suffice for the keys or the signature of a seed and a message. *)
Definition stuck (F : Prop) (seed msg : list Z) : Prop :=
  (forall pk0 sk0, length pk0 = sizeof_pk p -> bytes pk0 -> length sk0 = sizeof_sk p -> crypto_sign_keypair X p fuel junk (x_init X seed) pk0 sk0 = NoFuel -> F) /\
  (forall pk sk rng1, generates X p (x_init X seed) sk pk rng1 ->
     crypto_sign X p fuel junk rng1 (repeat 0 (length msg + sizeof_sign p)) msg sk = NoFuel -> F).

Lemma response_step_ok (F : Prop) pre i seed msg t rest rsp pk0 sk0 seed0 cnt ml : ~ In 99 pre -> length seed = 48%nat -> bytes seed -> msg <> [] -> bytes msg ->
  Z.of_nat (length msg) < 2 ^ 32 -> Z.of_nat i < 10 ^ 20 -> request_record i seed msg t ->
  length pk0 = sizeof_pk p -> bytes pk0 -> length sk0 = sizeof_sk p -> length seed0 = 48%nat -> stuck F seed msg ->
  gp F (response_step X p fuel junk (pre ++ t ++ rest) rsp pk0 sk0 seed0 cnt ml) (fun st =>
    exists pk sk sm num r, test_vector X p seed msg pk sk sm num /\ Z.of_nat num <= max_seeds p /\ response_record i seed msg pk sk sm r /\
      length pk = sizeof_pk p /\ bytes pk /\ length sk = sizeof_sk p /\
      st = if Z.of_nat num =? max_seeds p then Return (-4) (rsp ++ r) else Go (leftover ++ rest) (rsp ++ r) pk sk seed (Z.of_nat i) (Z.of_nat (length msg))).
Proof using wf LX.
  intros HP HS1 HS2 HM1 HM2 HV HI (di & dl & D1 & D2 & ->) HK1 HK2 HK3 HS0 [HF1 HF2]. pose proof sign_size_small as SZ.
  match goal with |- context [pre ++ ?r ++ rest] => replace (pre ++ r ++ rest) with
    (pre ++ str "count = " ++ di ++ 10 :: str "seed = " ++ hexadecimal seed ++ 10 :: str "mlen = " ++ dl ++ 10 :: str "msg = " ++ hexadecimal msg ++ 10 :: leftover ++ rest) end.
  2:{ f_equal. unfold leftover, line. change (@str) with (@text). rewrite <- !app_assoc. cbn [app]. rewrite <- ?app_assoc. reflexivity. }
  unfold response_step. assert (LM : length msg <> 0%nat) by (destruct msg; [congruence|discriminate]).
  rewrite FindMarker_at; [|discriminate|vm_compute; lia|exact HP]. cbn [Z.eqb Pos.eqb negb].
  rewrite (fscanf_decimal _ _ _ _ D1) by reflexivity. cbn [Z.eqb].
  match goal with |- context [ReadHex (10 :: str "seed = " ++ ?r) seed0 _ _] => assert (F1 : FindMarker (10 :: str "seed = " ++ r) (str "seed = ") = (1, r)) end.
  { apply (FindMarker_at [10] (str "seed = ")); [discriminate|vm_compute; lia|]. vm_compute. intros [?|[]]; discriminate. }
  assert (F2 := ReadHex_print _ seed0 seed _ _ _ ltac:(destruct seed; discriminate) ltac:(congruence) HS2 (eq_refl : isxdigit 10 = false) F1). rewrite HS1 in F2.
  rewrite F2. cbn [bind Z.eqb].
  assert (P1 : fprintBstr (str "seed = ") seed 48 = Ok (str "seed = " ++ hexadecimal seed ++ [newline])).
  { apply fprintBstr_full; auto; lia. }
  rewrite P1. cbn [bind]. rewrite rd_ok by lia. cbn [bind]. change (skipn 0 seed) with seed. rewrite firstn_all2 by lia.
  match goal with |- context [FindMarker (str "mlen = " ++ ?r) ?M] => assert (F3 : FindMarker (str "mlen = " ++ r) M = (1, r)) end.
  { apply (FindMarker_at [] (str "mlen = ")); [discriminate|vm_compute; lia|intros []]. }
  rewrite F3. cbn [Z.eqb Pos.eqb negb]. rewrite (fscanf_decimal _ _ _ _ D2) by reflexivity. cbn [Z.eqb]. rewrite !Nat2Z.id.
  match goal with |- context [ReadHex (10 :: str "msg = " ++ ?r) _ _ _] => assert (F4 : FindMarker (10 :: str "msg = " ++ r) (str "msg = ") = (1, r)) end.
  { apply (FindMarker_at [10] (str "msg = ")); [discriminate|vm_compute; lia|]. vm_compute. intros [?|[]]; discriminate. }
  assert (F5 := ReadHex_print _ (repeat 0 (length msg)) msg _ _ _ HM1 ltac:(rewrite repeat_length; reflexivity) HM2 (eq_refl : isxdigit 10 = false) F4).
  rewrite F5. cbn [bind Z.eqb].
  assert (P2 : fprintBstr (str "msg = ") msg (length msg) = Ok (str "msg = " ++ hexadecimal msg ++ [newline])).
  { apply fprintBstr_full; auto; lia. }
  rewrite P2. cbn [bind]. clear F1 F2 F3 F4 F5 P1 P2.
  pose proof (keypair_run (x_init X seed) pk0 sk0 HK1 HK2 HK3) as KR.
  destruct (crypto_sign_keypair X p fuel junk (x_init X seed) pk0 sk0) as [[[[ret pk] sk] rng1]| |] eqn:EK; cbn [wp gp bind] in *; [|destruct KR|exact (HF1 _ _ HK1 HK2 HK3 EK)].
  destruct KR as (-> & G & K1 & K2 & K3 & K4 & AK). cbn [Z.eqb negb].
  assert (Lpk : (0 < sizeof_pk p)%nat) by (apply Nat.lt_lt_add_r; unfold seed_len; destruct (p_cat p); lia).
  assert (Lsk : (0 < sizeof_sk p)%nat) by (apply Nat.lt_lt_add_r; unfold prikey_seed_len, seed_len; destruct (p_cat p); lia).
  assert (P3 : fprintBstr (str "pk = ") pk (sizeof_pk p) = Ok (str "pk = " ++ hexadecimal pk ++ [newline])).
  { apply fprintBstr_full; auto; lia. }
  assert (P4 : fprintBstr (str "sk = ") sk (sizeof_sk p) = Ok (str "sk = " ++ hexadecimal sk ++ [newline])).
  { apply fprintBstr_full; auto; lia. }
  rewrite P3, P4. cbn [bind]. clear P3 P4.
  pose proof (sign_run rng1 msg sk K4 HM2 ltac:(lia)) as SR.
  destruct (crypto_sign X p fuel junk rng1 (repeat 0 (length msg + sizeof_sign p)) msg sk) as [[[[ret sm] smlen] rng2]| |] eqn:ES; cbn [wp gp bind] in *; [|destruct SR|exact (HF2 _ _ _ G ES)].
  destruct SR as (-> & sig & num & SG & SB & SL & -> & SC & SM & FIT & ->). cbn [Z.eqb negb]. rewrite Nat2Z.id.
  set (sl := (off_seeds p + num * seed_len p + 1)%nat) in *.
  assert (EF : firstn (length msg + sl) (msg ++ sig) = msg ++ firstn sl sig).
  { rewrite firstn_app, firstn_all2 by lia. f_equal. f_equal. lia. }
  assert (P5 : fprintBstr (str "sm = ") (msg ++ sig) (length msg + sl) = Ok (str "sm = " ++ hexadecimal (msg ++ firstn sl sig) ++ [newline])).
  { rewrite fprintBstr_ok, EF; [reflexivity|rewrite app_length; lia|]. rewrite EF. apply Forall_app. split; auto. apply Forall_firstn. auto. }
  rewrite P5. cbn [bind]. clear P5.
  assert (AS : api_signed X p fuel sk msg (msg ++ sig) (Z.of_nat (length msg + sl))).
  { exists junk, rng1, rng2, 0, (repeat 0 (length msg + sizeof_sign p)). rewrite repeat_length. split; auto. split; [apply zeros_bytes|]. split; [lia|]. split; [lia|]. exact ES. }
  rewrite (C02_open X p wf LX fuel sk pk AK fuel msg _ _ AS fuel junk (repeat 0 (length msg + sizeof_sign p)) (msg ++ sig)).
  2:{ apply le_n. } 2:{ apply Forall_app. auto. } 2:{ rewrite app_length. lia. } 2:{ rewrite app_length, Nat2Z.id. lia. } 2:{ reflexivity. } 2:{ rewrite repeat_length. lia. }
  rewrite Nat2Z.id. replace (length msg + sl - 1)%nat with (length msg + (off_seeds p + num * seed_len p))%nat by (unfold sl; lia).
  rewrite app_nth2_plus, SC.
  assert (TV : test_vector X p seed msg pk sk (msg ++ firstn sl sig) num).
  { exists rng1, rng2, sig. split; auto. split; auto. do 2 f_equal. unfold sl, off_seeds. lia. }
  eassert (RR : response_record i seed msg pk sk (msg ++ firstn sl sig) _).
  { exists (print_dec (Z.of_nat i)), (print_dec (Z.of_nat (length msg))), (print_dec (Z.of_nat (length msg + sl))).
    split; [apply print_dec_ok; lia|]. split; [apply print_dec_ok; lia|]. split.
    { rewrite app_length, firstn_length, Nat.min_l by lia. apply print_dec_ok. lia. } reflexivity. }
  destruct (Z.eqb_spec (Z.of_nat num) (max_seeds p)) as [EM|EM].
  - cbn [bind Z.eqb negb gp]. do 5 eexists. split; [exact TV|]. split; [exact SM|]. split; [exact RR|]. split; auto. split; auto. split; auto.
    destruct (Z.eqb_spec (Z.of_nat num) (max_seeds p)); [|congruence]. unfold KAT_CRYPTO_FAILURE. f_equal.
    rewrite <- !app_assoc. f_equal. unfold line. rewrite <- !app_assoc. reflexivity.
  - cbn [bind Z.eqb negb]. rewrite Z.eqb_refl. cbn [negb]. rewrite rd_ok by lia. cbn [bind]. change (skipn 0 msg) with msg. rewrite firstn_all.
    rewrite rd_ok by (rewrite app_length; lia). cbn [bind skipn]. rewrite firstn_app, firstn_all, Nat.sub_diag, firstn_O, app_nil_r.
    destruct (list_eq_dec Z.eq_dec msg msg); [|congruence]. cbn [gp]. do 5 eexists. split; [exact TV|]. split; [exact SM|]. split; [exact RR|]. split; auto. split; auto. split; auto.
    destruct (Z.eqb_spec (Z.of_nat num) (max_seeds p)); [congruence|]. f_equal.
    rewrite <- !app_assoc. f_equal. unfold line. rewrite <- !app_assoc. reflexivity.
Qed.

(** The inputs of a run. *)
Definition good_input (x : list Z * list Z) : Prop :=
  length (fst x) = 48%nat /\ bytes (fst x) /\ snd x <> [] /\ bytes (snd x) /\ Z.of_nat (length (snd x)) < 2 ^ 32.

Lemma leftover_no_c : ~ In 99 leftover.
Proof. vm_compute. intuition discriminate. Qed.

Lemma response_loop_ok (F : Prop) ins : forall i recs n pre rsp pk0 sk0 seed0 cnt ml, Forall good_input ins ->
  Z.of_nat (i + length ins) < 10 ^ 20 ->
  length recs = length ins -> (forall j, (j < length ins)%nat -> request_record (i + j) (fst (nth j ins ([], []))) (snd (nth j ins ([], []))) (nth j recs [])) ->
  (length ins < n)%nat -> ~ In 99 pre -> length pk0 = sizeof_pk p -> bytes pk0 -> length sk0 = sizeof_sk p -> length seed0 = 48%nat ->
  (forall x, In x ins -> stuck F (fst x) (snd x)) ->
  gp F (response_loop X p fuel junk n (pre ++ concat recs) rsp pk0 sk0 seed0 cnt ml) (fun '(code, rsp') =>
    exists done : list (list Z), 
      (forall j, (j < length done)%nat -> exists pk sk sm num, let x := nth j ins ([], []) in
         test_vector X p (fst x) (snd x) pk sk sm num /\ response_record (i + j) (fst x) (snd x) pk sk sm (nth j done []) /\
         Z.of_nat num <= max_seeds p /\ (Z.of_nat num = max_seeds p <-> code = -4 /\ S j = length done)) /\
      rsp' = rsp ++ concat done /\
      ((code = 0 /\ length done = length ins) \/ (code = -4 /\ (1 <= length done <= length ins)%nat))).
Proof using wf LX.
  induction ins as [|[seed msg] ins IH]; intros i recs n pre rsp pk0 sk0 seed0 cnt ml HI HB HL HR Hn HP HK1 HK2 HK3 HS0 HF.
  - destruct recs; [|discriminate]. destruct n as [|n]; [cbn in Hn; lia|]. cbn [concat response_loop]. rewrite app_nil_r. unfold response_step.
    rewrite (FindMarker_none pre 99 (tl (str "count = ")) ltac:(vm_compute; lia) HP : FindMarker pre (str "count = ") = (0, [])). cbn [Z.eqb negb bind gp].
    exists []. split; [intros j Hj; cbn in Hj; lia|]. cbn [concat length]. rewrite app_nil_r. split; auto.
  - destruct recs as [|t recs]; [discriminate|]. destruct n as [|n]; [cbn in Hn; lia|]. inversion HI as [|? ? (G1 & G2 & G3 & G4 & G5) HI']; subst. cbn [fst snd] in *.
    cbn [concat response_loop]. pose proof (HR 0%nat ltac:(cbn; lia)) as R0. cbn [nth fst snd] in R0. rewrite Nat.add_0_r in R0. cbn [length] in *.
    pose proof (response_step_ok F pre i seed msg t (concat recs) rsp pk0 sk0 seed0 cnt ml HP G1 G2 G3 G4 G5 ltac:(lia) R0 HK1 HK2 HK3 HS0 (HF (seed, msg) (or_introl eq_refl))) as S.
    destruct (response_step X p fuel junk (pre ++ t ++ concat recs) rsp pk0 sk0 seed0 cnt ml) as [st| |]; cbn [gp bind] in *; auto.
    destruct S as (pk & sk & sm & num & r & TV & SM & RR & K1 & K2 & K3 & ->). destruct (Z.eqb_spec (Z.of_nat num) (max_seeds p)) as [EM|EM].
    + cbn [gp]. exists [r]. split.
      { intros j Hj. cbn in Hj. assert (j = 0%nat) by lia. subst j. rewrite Nat.add_0_r. exists pk, sk, sm, num. cbn [nth fst snd length]. split; auto. split; auto. split; auto. split; auto. }
      cbn [concat length]. rewrite app_nil_r. split; auto. right. split; auto. lia.
    + specialize (IH (S i) recs n leftover (rsp ++ r) pk sk seed (Z.of_nat i) (Z.of_nat (length msg)) HI' ltac:(lia) ltac:(lia)).
      assert (HR' : forall j, (j < length ins)%nat -> request_record (S i + j) (fst (nth j ins ([], []))) (snd (nth j ins ([], []))) (nth j recs [])).
      { intros j Hj. specialize (HR (S j) ltac:(lia)). cbn [nth] in HR. rewrite Nat.add_succ_r in HR. exact HR. }
      specialize (IH HR' ltac:(lia) leftover_no_c K1 K2 K3 G1 (fun x Hx => HF x (or_intror Hx))). revert IH.
      match goal with |- gp F ?m _ -> _ => destruct m as [[code rsp']| |] end; cbn [gp]; auto.
      intros (done & D1 & D2 & D3). exists (r :: done). split.
      * intros [|j] Hj.
        -- rewrite Nat.add_0_r. exists pk, sk, sm, num. cbn [nth fst snd length]. split; auto. split; auto. split; auto. split; [congruence|]. intros [E1 E2]. lia.
        -- cbn [length] in Hj. destruct (D1 j ltac:(lia)) as (pk' & sk' & sm' & num' & A1 & A2 & A3 & A4). exists pk', sk', sm', num'. cbn [nth length]. rewrite Nat.add_succ_r.
           split; auto. split; auto. split; auto. rewrite A4. split; intros [? ?]; split; auto.
      * cbn [concat length]. rewrite D2, <- app_assoc. split; auto. destruct D3 as [[D3 D4]|[D3 D4]]; [left; lia|right; lia].
Qed.

End K.

(** *** The request file *)
Section R.
Variable aes : list Z -> list Z -> list Z.
Hypothesis HA : forall k b, length (aes k b) = 16%nat /\ bytes (aes k b).
Lemma generate_length st n : length (fst (drbg_generate aes st n)) = n.
Proof using HA.
  unfold drbg_generate. cbv zeta. cbn [fst]. rewrite firstn_length, ctr_blocks_length by exact HA.
  pose proof (Nat.div_mod (n + 15) 16 ltac:(lia)). pose proof (Nat.mod_upper_bound (n + 15) 16 ltac:(lia)). lia.
Qed.

Lemma generate_bytes st n : bytes (fst (drbg_generate aes st n)).
Proof using HA. unfold drbg_generate. cbv zeta. cbn [fst]. apply Forall_firstn. apply ctr_blocks_bytes. exact HA. Qed.

Lemma test_inputs_length st i n : length (test_inputs aes st i n) = n.
Proof.
  revert st i. induction n; intros st i; cbn [test_inputs]; auto. destruct (drbg_generate aes st 48) as [seed st1]. destruct (drbg_generate aes st1 (33 * (i + 1))) as [msg st2].
  cbn [length]. rewrite IHn. reflexivity.
Qed.

Lemma test_inputs_good n : forall st i, Z.of_nat (33 * (i + n)) < 2 ^ 32 -> Forall good_input (test_inputs aes st i n).
Proof using HA.
  induction n; intros st i Hb; cbn [test_inputs]; [constructor|].
  pose proof (generate_length st 48) as L1. pose proof (generate_bytes st 48) as B1. destruct (drbg_generate aes st 48) as [seed st1].
  pose proof (generate_length st1 (33 * (i + 1))) as L2. pose proof (generate_bytes st1 (33 * (i + 1))) as B2. destruct (drbg_generate aes st1 (33 * (i + 1))) as [msg st2].
  cbn [fst] in *. constructor; [|apply IHn; lia]. unfold good_input. cbn [fst snd]. repeat split; auto; try lia. intros ->. cbn [length] in L2. lia.
Qed.

Lemma kat_inputs_length : length (kat_inputs aes) = 100%nat.
Proof. apply test_inputs_length. Qed.
Lemma kat_inputs_good : Forall good_input (kat_inputs aes).
Proof using HA. exact (test_inputs_good 100 (drbg_instantiate aes (map Z.of_nat (seq 0 48))) 0 eq_refl). Qed.

Variable junk : nat -> nat -> Z.

Lemma junk_bytes_length s n : length (junk_bytes junk s n) = n.
Proof. unfold junk_bytes. rewrite map_length, seq_length. auto. Qed.
Lemma junk_bytes_bytes s n : bytes (junk_bytes junk s n).
Proof. apply Forall_forall. intros x H. apply in_map_iff in H. destruct H as (j & <- & _). apply is_byte_u8. Qed.

Definition request_body (i : nat) (s : list Z * drbg_ctx * list Z * list Z) : res (list Z * drbg_ctx * list Z * list Z) :=
    let '(req, ctx, seed, msg) := s in
    let req := req ++ str "count = " ++ print_dec (Z.of_nat i) ++ [newline] in
    ' (_, seed, ctx) <- KAT_NIST_randombytes aes (junk_bytes junk 101 16) (junk_bytes junk 102 48) ctx seed 48 ;;
    l1 <- fprintBstr (str "seed = ") seed 48 ;;
    let mlen := 33 * (Z.of_nat i + 1) in
    ' (_, msg, ctx) <- KAT_NIST_randombytes aes (junk_bytes junk 103 16) (junk_bytes junk 104 48) ctx msg mlen ;;
    l2 <- fprintBstr (str "msg = ") msg (Z.to_nat mlen) ;;
    Ok (req ++ l1 ++ str "mlen = " ++ print_dec mlen ++ [newline] ++ l2
          ++ str "pk =" ++ [newline] ++ str "sk =" ++ [newline] ++ str "smlen =" ++ [newline] ++ str "sm =" ++ [newline; newline],
        ctx, seed, msg).

Lemma request_body_loop ctx0 seed0 msg0 : request_loop aes junk ctx0 seed0 msg0 = for_ 100 0 request_body ([], ctx0, seed0, msg0).
Proof. reflexivity. Qed.

Lemma request_loop_ok n : forall i st ctx req seed msg, represents ctx st -> length seed = 48%nat -> (33 * (i + n) <= length msg)%nat ->
  Z.of_nat (length msg) < 2 ^ 31 ->
  exists recs ctx' seed' msg', for_ n i request_body (req, ctx, seed, msg) = Ok (req ++ concat recs, ctx', seed', msg') /\ length seed' = 48%nat /\
    length recs = n /\ forall j, (j < n)%nat -> let x := nth j (test_inputs aes st i n) ([], []) in request_record (i + j) (fst x) (snd x) (nth j recs []).
Proof using HA.
  induction n as [|n IH]; intros i st ctx req seed msg HR HS HM HB.
  { exists [], ctx, seed, msg. cbn [for_ concat length]. rewrite app_nil_r. split; auto. split; auto. split; auto. intros j Hj. lia. }
  cbn [for_]. unfold request_body at 1.
  destruct (random_ok aes HA (junk_bytes junk 101 16) (junk_bytes junk 102 48) ctx st seed 48 HR (junk_bytes_length _ _) (junk_bytes_length _ _) ltac:(lia) ltac:(lia)) as (ctx1 & E1 & _ & R1).
  change (Z.of_nat 48) with 48 in E1. rewrite E1. cbn [bind]. rewrite skipn_all2, app_nil_r by lia.
  pose proof (generate_length st 48) as L1. pose proof (generate_bytes st 48) as B1. cbn [test_inputs]. destruct (drbg_generate aes st 48) as [sd st1] eqn:G1. cbn [fst snd] in *.
  rewrite (fprintBstr_full _ sd 48 L1) by (auto; lia). cbn [bind].
  replace (33 * (Z.of_nat i + 1)) with (Z.of_nat (33 * (i + 1))) by lia. set (ml := (33 * (i + 1))%nat) in *.
  destruct (random_ok aes HA (junk_bytes junk 103 16) (junk_bytes junk 104 48) ctx1 st1 msg ml R1 (junk_bytes_length _ _) (junk_bytes_length _ _) ltac:(lia) ltac:(lia)) as (ctx2 & E2 & _ & R2).
  rewrite E2. cbn [bind]. pose proof (generate_length st1 ml) as L2. pose proof (generate_bytes st1 ml) as B2. destruct (drbg_generate aes st1 ml) as [m st2] eqn:G2. cbn [fst snd] in *.
  rewrite Nat2Z.id. assert (EF : firstn ml (m ++ skipn ml msg) = m) by (rewrite <- L2 at 1; rewrite firstn_app, firstn_all, Nat.sub_diag, firstn_O, app_nil_r; auto).
  rewrite fprintBstr_ok by (rewrite ?EF, ?app_length; auto; lia). rewrite EF. cbn [bind].
  match goal with |- context [for_ n (S i) request_body (?r, _, _, _)] =>
    destruct (IH (S i) st2 ctx2 r sd (m ++ skipn ml msg) R2 L1) as (recs & ctx' & seed' & msg' & I1 & I2 & I3 & I4) end.
  { rewrite app_length, skipn_length. lia. } { rewrite app_length, skipn_length. lia. }
  rewrite I1.
  eexists (_ :: recs), ctx', seed', msg'. split; [|split; [exact I2|split; [cbn [length]; rewrite I3; reflexivity|]]].
  2:{ intros [|j] Hj.
      - cbn [nth fst snd]. rewrite Nat.add_0_r. exists (print_dec (Z.of_nat i)), (print_dec (Z.of_nat ml)).
        split; [apply print_dec_ok; lia|]. split; [rewrite L2; apply print_dec_ok; lia|]. reflexivity.
      - cbn [nth]. rewrite Nat.add_succ_r. apply I4. lia. }
  cbn [concat]. f_equal. f_equal. f_equal. f_equal. unfold line. change (@str) with (@text). rewrite <- !app_assoc. cbn [app]. rewrite <- ?app_assoc. reflexivity.
Qed.

Lemma request_ok ctx0 : length (d_key ctx0) = 32%nat -> length (d_v ctx0) = 16%nat ->
  exists recs seed, kat_request aes junk ctx0 = Ok (concat recs, seed) /\ length seed = 48%nat /\ length recs = 100%nat /\
    forall i, (i < 100)%nat -> let x := nth i (kat_inputs aes) ([], []) in request_record i (fst x) (snd x) (nth i recs []).
Proof using HA.
  intros H1 H2. unfold kat_request.
  destruct (init_ok aes HA (junk_bytes junk 100 48) ctx0 (map Z.of_nat (seq 0 48)) None (junk_bytes_length _ _) H1 H2 eq_refl) as (ctx & E & _ & R); auto.
  { apply Forall_forall. intros x Hx. apply in_map_iff in Hx. destruct Hx as (i & <- & Hi). apply in_seq in Hi. red. lia. }
  rewrite E. cbn [bind]. rewrite request_body_loop.
  destruct (request_loop_ok 100 0 _ ctx [] (junk_bytes junk 105 48) (junk_bytes junk 106 (Z.to_nat 3300)) R (junk_bytes_length _ _)) as (recs & ctx' & seed' & msg' & I1 & I2 & I3 & I4).
  { rewrite junk_bytes_length. lia. } { rewrite junk_bytes_length. lia. }
  rewrite I1. cbn [bind app]. exists recs, seed'. auto.
Qed.
End R.

(** *** The whole program *)
Section M.
Variable aes : list Z -> list Z -> list Z.
Hypothesis HA : forall k b, length (aes k b) = 16%nat /\ bytes (aes k b).
Variable X : prim.
Variable p : params.
Hypothesis wf : wf_params p.
Hypothesis LX : lawful X (hash_len p).

Lemma request_record_long i seed msg t : request_record i seed msg t -> (1 <= length t)%nat.
Proof. intros (di & dl & _ & _ & ->). unfold line. rewrite !app_length. cbn. lia. Qed.

Lemma concat_long (recs : list (list Z)) : (forall i, (i < length recs)%nat -> (1 <= length (nth i recs []))%nat) -> (length recs <= length (concat recs))%nat.
Proof.
  induction recs as [|r recs IH]; intros H. auto. cbn [concat length]. rewrite app_length.
  pose proof (H 0%nat ltac:(cbn; lia)). cbn [nth] in *. specialize (IH (fun i Hi => H (S i) ltac:(cbn; lia))). lia.
Qed.

Lemma main_ok (F : Prop) fuel junk ctx0 : length (d_key ctx0) = 32%nat -> length (d_v ctx0) = 16%nat ->
  (forall x, In x (kat_inputs aes) -> stuck X p fuel junk F (fst x) (snd x)) ->
  gp F (kat_main aes X p fuel junk ctx0) (fun '(code, req, rsp) =>
    (exists recs, length recs = 100%nat /\ req = concat recs /\
       forall i, (i < 100)%nat -> request_record i (fst (nth i (kat_inputs aes) ([], []))) (snd (nth i (kat_inputs aes) ([], []))) (nth i recs [])) /\
    (exists recs, rsp = text "# LESS" ++ [10; 10] ++ concat recs /\
       ((code = 0 /\ length recs = 100%nat) \/ (code = -4 /\ (1 <= length recs <= 100)%nat)) /\
       forall i, (i < length recs)%nat -> exists pk sk sm num,
         test_vector X p (fst (nth i (kat_inputs aes) ([], []))) (snd (nth i (kat_inputs aes) ([], []))) pk sk sm num /\
         response_record i (fst (nth i (kat_inputs aes) ([], []))) (snd (nth i (kat_inputs aes) ([], []))) pk sk sm (nth i recs []) /\
         Z.of_nat num <= max_seeds p /\ (Z.of_nat num = max_seeds p <-> code = -4 /\ S i = length recs))).
Proof using HA wf LX.
  intros H1 H2 HF. unfold kat_main. destruct (request_ok aes HA junk ctx0 H1 H2) as (recs & seed & E & L1 & L2 & RR). rewrite E. cbn [bind].
  assert (LI : length (kat_inputs aes) = 100%nat) by apply kat_inputs_length.
  assert (LC : (length recs <= length (concat recs))%nat). { apply concat_long. intros i Hi. rewrite L2 in Hi. eapply request_record_long. apply (RR i Hi). }
  pose proof (response_loop_ok X p wf LX fuel junk F (kat_inputs aes) 0 recs (S (length (concat recs))) [] (str "# LESS" ++ [newline; newline])
    (junk_bytes junk 107 (sizeof_pk p)) (junk_bytes junk 108 (sizeof_sk p)) seed (junk 110%nat 0%nat) (junk 110%nat 1%nat)) as R.
  rewrite LI, L2 in *. cbn [app] in R.
  specialize (R (kat_inputs_good aes HA) ltac:(lia) eq_refl RR ltac:(lia) (fun x => x) (junk_bytes_length _ _ _) (junk_bytes_bytes _ _ _) (junk_bytes_length _ _ _) L1 HF).
  revert R. match goal with |- gp F ?m _ -> _ => destruct m as [[code rsp]| |] end; cbn [gp bind]; auto.
  intros (done & D1 & D2 & D3). split. { exists recs. auto. }
  exists done. rewrite D2, <- app_assoc. split; [reflexivity|]. split; auto.
Qed.

End M.

Section V.
Variable X : prim.
Variable p : params.
Hypothesis wf : wf_params p.
Hypothesis LX : lawful X (hash_len p).

(** A vector shows that the fuel can suffice. *)
Lemma vector_not_stuck x pk sk sm num : good_input x -> test_vector X p (fst x) (snd x) pk sk sm num ->
  exists f, forall fuel junk, (f <= fuel)%nat -> stuck X p fuel junk False (fst x) (snd x).
Proof using wf LX.
  intros (G1 & G2 & G3 & G4 & G5) (rng1 & rng2 & sig & HG & HS & _). destruct x as [seed msg]. cbn [fst snd] in *.
  destruct (C39_keys X p wf LX _ _ _ _ HG) as (_ & SL & UN).
  destruct (proj2 (C39_keygen X p wf LX _ _ _ _) HG) as (f1 & F1).
  destruct (proj2 (C40_sign X p wf LX rng1 sk msg (repeat 0 (sizeof_sign p)) sig num rng2 SL (repeat_length _ _) (zeros_bytes _) G4) HS) as (f2 & F2).
  exists (Nat.max f1 f2). intros fuel junk Hf. split.
  - intros pk0 sk0 K1 K2 K3 E. unfold crypto_sign_keypair in E. rewrite rd_ok in E by lia. cbn [bind skipn] in E. rewrite rd_ok in E by lia. cbn [bind skipn] in E.
    rewrite !firstn_all2 in E by lia. rewrite F1 in E by (auto; lia). cbn [bind] in E.
    unfold wr in E. destruct (_ <=? _)%nat in E; cbn [bind] in E; [|discriminate]. destruct (_ <=? _)%nat in E; cbn [bind] in E; discriminate.
  - intros pk' sk' rng' HG' E. destruct (UN _ _ _ HG') as (-> & _ & ->). revert E. unfold crypto_sign.
    rewrite repeat_app, wr_ok by (rewrite app_length, !repeat_length; lia). cbn [bind]. rewrite firstn_O, Nat.add_0_l. cbn [app].
    rewrite skipn_app, skipn_all2 by (rewrite repeat_length; lia). rewrite repeat_length, Nat.sub_diag. cbn [app skipn].
    rewrite rd_ok by (rewrite app_length, repeat_length; lia). cbn [bind]. rewrite skipn_app, skipn_all, Nat.sub_diag. cbn [app skipn].
    rewrite firstn_all2 by (rewrite repeat_length; lia). rewrite F2 by lia. cbn [bind]. unfold wr. destruct (_ <=? _)%nat; cbn [bind]; discriminate.
Qed.

Lemma vector_below : Z.of_nat (most_published (tree_height p) (pT p) (pW p)) < max_seeds p ->
  forall x pk sk sm num, good_input x -> test_vector X p (fst x) (snd x) pk sk sm num -> Z.of_nat num < max_seeds p.
Proof using wf LX.
  intros HM [seed msg] pk sk sm num (G1 & G2 & G3 & G4 & G5) (rng1 & rng2 & sig & HG & HS & _). cbn [fst snd] in *.
  destruct (C39_keys X p wf LX _ _ _ _ HG) as (_ & SL & UN).
  destruct (proj2 (C40_sign X p wf LX rng1 sk msg (repeat 0 (sizeof_sign p)) sig num rng2 SL (repeat_length _ _) (zeros_bytes _) G4) HS) as (f & F).
  pose proof (LESS_sign_spec X p wf LX f (fun _ _ => 0) rng1 sk msg (repeat 0 (sizeof_sign p)) SL (repeat_length _ _) (zeros_bytes _)) as W.
  rewrite F in W by lia. cbn [wp] in W. destruct W as (tree & c & fullG & acts & Vs & fws & fl & SG).
  destruct (to_publish_ok p fws (sg_fws _ _ _ _ _ _ _ _ _ _ _ _ _ _ SG)) as (P1 & P2 & P3).
  pose proof (wf_W p wf). pose proof (npub_most p wf _ P1 P2 fl (sg_flags _ _ _ _ _ _ _ _ _ _ _ _ _ _ SG) ltac:(lia)) as NM.
  rewrite (sg_num _ _ _ _ _ _ _ _ _ _ _ _ _ _ SG). rewrite P3 in NM. lia.
Qed.
End V.
