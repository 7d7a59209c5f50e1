(** The outputs of key generation, signing and verification are determined by the inputs and the random bytes. *)
From Verif Require Import Base BaseLemmas Params ParamsProofs Fq FqProofs EnumProofs LinAlg Prim Samplers Monomial Codes SeedTree Utils
  Less Sign Spec RrefProofs MonoProofs ActionProofs CodecProofs SamplerProofs SeedTreeProofs TreeFacts FuelProofs RoundProofs VerifyProofs
  SignerProofs ScriptRun.

Section R.
Variable X : prim.
Variable p : params.
Hypothesis wf : wf_params p.
Hypothesis LX : lawful X (hash_len p).
Notation N := (pN p).
Notation K := (pK p).
Notation slen := (seed_len p).
Notation nn := (num_nodes p).

Lemma app_split {A} (a b c d : list A) : length a = length b -> a ++ c = b ++ d -> a = b /\ c = d.
Proof.
  revert b. induction a as [|x a IH]; intros [|y b] HL E; try discriminate. { auto. }
  cbn in *. injection E as -> E. injection HL as HL. destruct (IH b HL E) as [-> ->]. auto.
Qed.

Lemma pf_inj a b i : 0 <= nthZ a i -> 0 <= nthZ b i -> pf a i = pf b i -> nthZ a i = nthZ b i.
Proof. unfold pf. lia. Qed.

Lemma prep_det_act G Q V a V' a' : mono_ok p Q -> prep_rel p G Q V a -> prep_rel p G Q V' a' -> a = a'.
Proof.
  intros HQ (A0 & M & R & pv & fl & A1 & A2 & A3 & A4 & A5 & A6 & A7) (B0 & M' & R' & pv' & fl' & B1 & B2 & B3 & B4 & B5 & B6 & B7).
  assert (SC : same_code K N R R').
  { apply row_equiv_same_code.
    eapply row_equiv_trans; [apply row_equiv_sym; exact A2|]. eapply row_equiv_trans; [|exact B2].
    apply row_equiv_cong. intros i j Hi Hj. destruct (perm_surj p Q j HQ Hj) as (s & Hs & <-).
    rewrite A1, B1 by auto. reflexivity. }
  destruct (rref_unique K N R R' pv pv' SC A4 B4) as [E1 _].
  assert (EP : forall k, (k < K)%nat -> nthZ (a_perm a) k = nthZ (a_perm a') k).
  { intros k Hk. destruct (A7 k Hk) as (X1 & X2 & _). destruct (B7 k Hk) as (Y1 & Y2 & _).
    pose proof (ao_range p a A0 k Hk). pose proof (ao_range p a' B0 k Hk). apply pf_inj; try lia.
    apply (perm_list_bij N _ (mo_perm p Q HQ)); auto. rewrite X1, Y1. auto. }
  apply (action_ext p); auto; try apply A0; try apply B0.
  intros k Hk. destruct (A7 k Hk) as (_ & _ & X3). destruct (B7 k Hk) as (_ & _ & Y3). rewrite X3, Y3.
  unfold pf. rewrite EP by auto. auto.
Qed.

Lemma resp_det a Q b b' : mono_ok p Q -> act_ok p a -> act_ok p b -> act_ok p b' -> resp_rel p 1 a Q b -> resp_rel p 1 a Q b' -> b = b'.
Proof.
  intros HQ HA HB HB' R R'. apply (action_ext p); try apply HB; try apply HB'; intros k Hk.
  - pose proof (ao_range p a HA k Hk). destruct (perm_surj p Q (pf (a_perm a) k) HQ) as (s & Hs & Es). { unfold pf. lia. }
    destruct (R k s Hk Hs (eq_sym Es)) as [X1 _]. destruct (R' k s Hk Hs (eq_sym Es)) as [Y1 _].
    apply pf_inj; [apply HB; auto|apply HB'; auto|congruence].
  - pose proof (ao_range p a HA k Hk). destruct (perm_surj p Q (pf (a_perm a) k) HQ) as (s & Hs & Es). { unfold pf. lia. }
    destruct (R k s Hk Hs (eq_sym Es)) as [_ X1]. destruct (R' k s Hk Hs (eq_sym Es)) as [_ Y1].
    apply cong_eq.
    + pose proof (ao_coef p b HB k Hk). unfold fq_unit, fq in *. lia.
    + pose proof (ao_coef p b' HB' k Hk). unfold fq_unit, fq in *. lia.
    + rewrite X1, Y1. reflexivity.
Qed.

Lemma commit_det f f' tree salt G t V a V' a' : commit_round X p f tree salt G t V a -> commit_round X p f' tree salt G t V' a' ->
  V = V' /\ a = a' /\ act_ok p a.
Proof.
  intros (Q & S & P) (Q' & S' & P'). pose proof (sampled_det X p _ _ _ _ _ S S') as <-. destruct S as [HQ _].
  split. { eapply prep_det; eauto. } split. { eapply prep_det_act; eauto. } apply P.
Qed.

Lemma commits_det f f' tree salt G Vs acts Vs' acts' : length Vs = pT p -> length Vs' = pT p ->
  (forall t, (t < pT p)%nat -> commit_round X p f tree salt G t (nth t Vs []) (nth t acts act0)) ->
  (forall t, (t < pT p)%nat -> commit_round X p f' tree salt G t (nth t Vs' []) (nth t acts' act0)) ->
  Vs = Vs' /\ forall t, (t < pT p)%nat -> nth t acts act0 = nth t acts' act0 /\ act_ok p (nth t acts act0).
Proof.
  intros L1 L2 C C'. split.
  - apply (list_ext []); [lia|]. intros t Ht. eapply commit_det; [apply C|apply C']; lia.
  - intros t Ht. eapply commit_det; [apply C|apply C']; auto.
Qed.

Lemma zero_bytes n : bytes (repeat 0 n).
Proof. apply Forall_forall. intros y Hy. apply repeat_spec in Hy. subst y. unfold is_byte. lia. Qed.

Lemma chunk_nth (s s' : list Z) o n i : firstn n (skipn o s) = firstn n (skipn o s') -> (o <= i < o + n)%nat -> nth i s 0 = nth i s' 0.
Proof.
  intros E H. replace i with (o + (i - o))%nat by lia. rewrite <- !nth_skipn.
  rewrite <- (nth_firstn (skipn o s) n) by lia. rewrite E. apply nth_firstn. lia.
Qed.

(** All bytes but possibly the last one, and all those up to the count byte. *)
Definition same_signature (num : nat) (sig sig' : list Z) : Prop :=
  forall i, (i < off_seeds p + Z.to_nat (p_maxbytes p) \/ i <= off_seeds p + num * slen)%nat -> nth i sig 0 = nth i sig' 0.

Lemma signed_det f f' sk m sig num tree c G acts Vs fws fl sig' num' c' G' acts' Vs' fws' fl' :
  signed X p f sk m sig num tree c G acts Vs fws fl ->
  signed X p f' sk m sig' num' tree c' G' acts' Vs' fws' fl' ->
  sig_salt p sig = sig_salt p sig' -> num = num' /\ same_signature num sig sig'.
Proof.
  intros [A1 A2 A3 A4 A5 A6 A7 A8 A9 A10 A11 A12 A13 A14 A15 A16 A17 AZ A18]
         [B1 B2 B3 B4 B5 B6 B7 B8 B9 B10 B11 B12 B13 B14 B15 B16 B17 BZ B18] ES.
  destruct (sampledG_det X p _ _ _ _ _ _ _ A6 B6) as [<- <-]. rewrite <- ES in *.
  destruct (commits_det _ _ _ _ _ _ _ _ _ A7 B7 A8 B8) as [<- EA].
  assert (ED : sig_digest p sig = sig_digest p sig') by congruence. rewrite <- ED in *.
  assert (EF : fws = fws').
  { specialize (A11 (max f f') (Nat.le_max_l _ _)). specialize (B11 (max f f') (Nat.le_max_r _ _)). congruence. }
  subst fws'. destruct (to_publish_ok p fws A10) as (P1 & P2 & P3).
  assert (fl = fl') by (eapply flags_spec_det; eauto). subst fl'.
  assert (EN : num = num') by congruence. subst num'. split; auto.
  assert (OD : (off_digest p + hash_len p = off_seeds p)%nat) by (unfold off_seeds, off_digest; lia).
  intros i Hi.
  destruct (Nat.lt_ge_cases i (hash_len p)) as [H1|H1].
  { apply (chunk_nth sig sig' 0 (hash_len p)); [|lia]. rewrite !skipn_O. exact ES. }
  destruct (Nat.lt_ge_cases i (off_digest p)) as [H2|H2].
  { assert (MB : (0 < mono_bytes p)%nat) by (unfold off_digest in H2; destruct (mono_bytes p); lia).
    set (u := ((i - hash_len p) / mono_bytes p)%nat).
    assert (U1 : (u * mono_bytes p <= i - hash_len p < u * mono_bytes p + mono_bytes p)%nat).
    { pose proof (Nat.div_mod (i - hash_len p) (mono_bytes p) ltac:(lia)).
      pose proof (Nat.mod_upper_bound (i - hash_len p) (mono_bytes p) ltac:(lia)). fold u in H. lia. }
    assert (U2 : (u < pW p)%nat). { apply Nat.div_lt_upper_bound; [lia|]. unfold off_digest in H2. lia. }
    destruct A10 as (C1 & C2 & C3). rewrite weight_cnt, C1 in C2.
    destruct (cnt_nth_enum (nz fws) (pT p) u 0%nat) as (X1 & X2 & X3); [lia|].
    set (t := nth u (enum (nz fws) (pT p)) 0%nat) in *.
    destruct (A18 t X1 X2) as (Q & b & R1 & R2 & R3 & _ & R5). destruct (B18 t X1 X2) as (Q' & b' & T1 & T2 & T3 & _ & T5).
    pose proof (sampled_det X p _ _ _ _ _ R1 T1) as <-. destruct (EA t X1) as [E1 E2]. rewrite <- E1 in T2.
    assert (b = b'). { apply (resp_det (nth t acts act0) Q); auto. apply R1. } subst b'.
    rewrite X3 in R5, T5. specialize (R5 _ (zero_bytes (mono_bytes p)) (repeat_length _ _)).
    specialize (T5 _ (zero_bytes (mono_bytes p)) (repeat_length _ _)).
    apply (chunk_nth sig sig' (off_monom p u) (mono_bytes p)). { unfold sig_chunk in R5, T5. congruence. } unfold off_monom. lia. }
  destruct (Nat.lt_ge_cases i (off_seeds p)) as [H3|H3].
  { apply (chunk_nth sig sig' (off_digest p) (hash_len p)); [exact ED|]. lia. }
  destruct (Nat.lt_ge_cases i (off_seeds p + num * slen)) as [H4|H4].
  { apply (chunk_nth sig sig' (off_seeds p) (num * slen)); [congruence|lia]. }
  destruct (Nat.eq_dec i (off_seeds p + num * slen)) as [->|H5]; [congruence|].
  replace i with (off_seeds p + (i - off_seeds p))%nat by lia. rewrite AZ, BZ by lia. auto.
Qed.

Theorem sign_det fuel junk rng sk m sig0 sig num rng' :
  length sk = sizeof_sk p -> length sig0 = sizeof_sign p -> bytes sig0 ->
  LESS_sign X p fuel junk rng sk m sig0 = Ok (sig, num, rng') ->
  rng' = snd (x_squeeze X (hash_len p) (snd (x_squeeze X slen rng))) /\
  forall fuel' junk' sig0', (fuel <= fuel')%nat -> length sig0' = sizeof_sign p -> bytes sig0' ->
    exists sig', LESS_sign X p fuel' junk' rng sk m sig0' = Ok (sig', num, rng') /\
      length sig' = length sig /\ same_signature num sig sig'.
Proof.
  intros H1 H2 H3 E.
  assert (T : forall fu ju, sign_stuck X p True fu ju rng sk m).
  { intros. unfold sign_stuck. destruct (x_squeeze X slen rng). destruct (x_squeeze X (hash_len p) x). cbv zeta. auto 10. }
  pose proof (LESS_sign_drawn X p wf LX True fuel junk rng sk m sig0 (T _ _) H1 H2 H3) as S. rewrite E in S. cbn [gp] in S.
  destruct S as (tree & c & G & acts & Vs & fws & fl & HS & HD & _).
  split. { unfold drawn in HD. destruct (x_squeeze X slen rng) as [e r1]. cbn [snd]. destruct (x_squeeze X (hash_len p) r1). apply HD. }
  intros fuel' junk' sig0' Hf H2' H3'.
  assert (ST : sign_stuck X p False fuel' junk' rng sk m).
  { unfold sign_stuck, drawn in *. destruct (x_squeeze X slen rng) as [e r1]. destruct (x_squeeze X (hash_len p) r1) as [salt r2].
    destruct HD as (D1 & _ & D3).
    destruct HS as [A1 A2 A3 A4 A5 A6 A7 A8 A9 A10 A11 A12 A13 A14 A15 A16 A17 AZ A18]. rewrite D1 in *.
    split; [|split].
    - intros r Hr C. rewrite (proj1 A6 fuel' r Hf Hr) in C. discriminate.
    - intros tree' t r ET Ht Hr C. rewrite D3 in ET. injection ET as <-. destruct (A8 t Ht) as (Q & (_ & SQ) & _).
      rewrite (SQ fuel' r Hf Hr) in C. discriminate.
    - intros tree' c' G' h acts' ET SG SC. rewrite D3 in ET. injection ET as <-.
      destruct (sampledG_det X p _ _ _ _ _ _ _ A6 SG) as [<- <-]. cbv zeta.
      assert (SP := sign_commit_spec X p wf LX True fuel' junk' tree salt G ltac:(auto) A3 ltac:(apply A6)).
      rewrite SC in SP. cbn [gp] in SP. destruct SP as (LA & Vs' & LV & -> & HC).
      destruct (commits_det _ _ _ _ _ _ _ _ _ A7 LV A8 HC) as [<- EA]. rewrite <- A9.
      split. { rewrite (A11 fuel' Hf). discriminate. }
      intros fws' t r EF Ht Hn Hr C. rewrite (A11 fuel' Hf) in EF. injection EF as <-.
      destruct (A18 t Ht Hn) as (Q & b & (_ & SQ) & _). rewrite (SQ fuel' r Hf Hr) in C. discriminate. }
  pose proof (LESS_sign_drawn X p wf LX False fuel' junk' rng sk m sig0' ST H1 H2' H3') as S.
  destruct (LESS_sign X p fuel' junk' rng sk m sig0') as [[[sig' num'] rng'']| |]; cbn [gp] in S; try contradiction.
  destruct S as (tree' & c' & G' & acts' & Vs' & fws' & fl' & HS' & HD' & _).
  assert (EQ : sig_salt p sig = sig_salt p sig' /\ rng' = rng'' /\ tree = tree').
  { unfold drawn in *. destruct (x_squeeze X slen rng) as [e r1]. destruct (x_squeeze X (hash_len p) r1) as [salt r2].
    destruct HD as (D1 & D2 & D3). destruct HD' as (D1' & D2' & D3'). split; [congruence|]. split; congruence. }
  destruct EQ as (E1 & <- & <-). destruct (signed_det _ _ _ _ _ _ _ _ _ _ _ _ _ _ _ _ _ _ _ _ _ HS HS' E1) as [<- SS].
  exists sig'. split; auto. split; auto. rewrite (sg_len _ _ _ _ _ _ _ _ _ _ _ _ _ _ HS), (sg_len _ _ _ _ _ _ _ _ _ _ _ _ _ _ HS'). auto.
Qed.

(** *** Key generation *)
Lemma key_rel_det G Q Gx Gx' : G_ok p Gx -> G_ok p Gx' -> (exists pv, is_rref K N (ent Gx) pv) -> (exists pv, is_rref K N (ent Gx') pv) ->
  key_rel p G Q Gx -> key_rel p G Q Gx' -> Gx = Gx'.
Proof.
  intros (S1 & R1 & _) (S2 & R2 & _) (pv & P) (pv' & P') (M & M1 & M2) (M' & M1' & M2').
  assert (SC : same_code K N (ent Gx) (ent Gx')).
  { apply row_equiv_same_code. eapply row_equiv_trans; [apply row_equiv_sym; exact M2|]. eapply row_equiv_trans; [|exact M2'].
    apply row_equiv_cong. intros i j Hi Hj. rewrite M1, M1' by auto. reflexivity. }
  destruct (rref_unique K N _ _ _ _ SC P P') as [_ E].
  apply (mat_ext _ _ K N); auto. intros i j Hi Hj. apply cong_eq; auto.
Qed.

Lemma flags_exist pv : exists fl, flags_of K N pv fl.
Proof.
  exists (map (fun c => b2z (existsb (fun i => Nat.eqb (pv i) c) (seq 0 K))) (seq 0 N)).
  split. { rewrite map_length, seq_length. auto. }
  intros c Hc. rewrite nth_map_seq by auto. split; intros H.
  - destruct H as (i & Hi & E). replace (existsb _ _) with true; auto. symmetry. apply existsb_exists. exists i.
    split. { apply in_seq. lia. } apply Nat.eqb_eq. auto.
  - destruct (existsb _ _) eqn:E; auto. apply existsb_exists in E. destruct E as (i & Hi & E). apply Nat.eqb_eq in E.
    apply in_seq in Hi. destruct (H i); auto. lia.
Qed.

Theorem keygen_det fuel junk rng sk0 pk0 sk pk rng' :
  length sk0 = sizeof_sk p -> length pk0 = sizeof_pk p -> bytes pk0 ->
  LESS_keygen X p fuel junk rng sk0 pk0 = Ok (sk, pk, rng') ->
  rng' = snd (x_squeeze X slen (snd (x_squeeze X (prikey_seed_len p) rng))) /\
  forall fuel' junk' sk0' pk0', (fuel <= fuel')%nat -> length sk0' = sizeof_sk p -> length pk0' = sizeof_pk p -> bytes pk0' ->
    LESS_keygen X p fuel' junk' rng sk0' pk0' = Ok (sk, pk, rng').
Proof.
  intros H1 H2 H3 E. pose proof (keygen_sk X p fuel junk rng sk0 pk0 sk pk rng' LX H1 E) as KS.
  pose proof (LESS_keygen_spec X p wf LX fuel junk rng sk0 pk0 H1 H2 H3) as S. rewrite E in S. cbn [wp] in S.
  split. { destruct (x_squeeze X (prikey_seed_len p) rng) as [csk r1]. cbn [snd]. destruct (x_squeeze X slen r1). apply KS. }
  intros fuel' junk' sk0' pk0' Hf H1' H2' H3'.
  destruct S as [(csk & g0 & c & G & A1 & A2 & A3 & A4 & A5 & A6 & A7 & A8 & A9)].
  assert (ST : gp False (LESS_keygen X p fuel' junk' rng sk0' pk0') (fun '(sk', pk', _) => honest_key X p fuel' sk' pk')).
  { apply LESS_keygen_gp; auto. pose proof (law_sq_len _ _ LX (prikey_seed_len p) rng) as L1.
    destruct (x_squeeze X (prikey_seed_len p) rng) as [csk' r1].
    destruct (x_squeeze X slen r1) as [g0' r2]. destruct KS as [K1 _]. cbn [fst] in *.
    assert (csk' = csk /\ g0' = g0) as [-> ->]. { rewrite A1 in K1. apply app_split in K1; [|congruence]. destruct K1; auto. }
    split.
    - intros r Hr C. rewrite (proj1 A4 fuel' r Hf Hr) in C. discriminate.
    - intros x r Hx Hr C. destruct (A9 x Hx) as (Q & Gx & (_ & SQ) & _). rewrite (SQ fuel' r Hf Hr) in C. discriminate. }
  destruct (LESS_keygen X p fuel' junk' rng sk0' pk0') as [[[sk' pk'] rng'']| |] eqn:E'; cbn [gp] in ST; try contradiction.
  pose proof (keygen_sk X p fuel' junk' rng sk0' pk0' sk' pk' rng'' LX H1' E') as KS'.
  assert (EQ : sk = sk' /\ rng' = rng'').
  { destruct (x_squeeze X (prikey_seed_len p) rng) as [a r1]. destruct (x_squeeze X slen r1) as [b r2].
    destruct KS as [-> ->]. destruct KS' as [-> ->]. auto. }
  destruct EQ as [<- <-]. f_equal. f_equal. f_equal. symmetry.
  destruct ST as [(csk' & g0' & c' & G' & B1 & B2 & B3 & B4 & B5 & B6 & B7 & B8 & B9)].
  assert (csk = csk' /\ g0 = g0') as [<- <-]. { rewrite A1 in B1. apply app_split in B1; [auto|congruence]. }
  destruct (sampledG_det X p _ _ _ _ _ _ _ A4 B4) as [<- <-].
  apply (list_ext 0); [congruence|]. intros i Hi. rewrite A5 in Hi.
  destruct (Nat.lt_ge_cases i slen) as [I1|I1].
  { apply (chunk_nth _ _ 0 slen); [|lia]. rewrite !skipn_O. unfold pk_seed in A8, B8. congruence. }
  assert (RB : (0 < rref_bytes p)%nat) by (unfold sizeof_pk in Hi; destruct (rref_bytes p); lia).
  set (x := ((i - slen) / rref_bytes p)%nat).
  assert (U1 : (x * rref_bytes p <= i - slen < x * rref_bytes p + rref_bytes p)%nat).
  { pose proof (Nat.div_mod (i - slen) (rref_bytes p) ltac:(lia)) as DM.
    pose proof (Nat.mod_upper_bound (i - slen) (rref_bytes p) ltac:(lia)). fold x in DM. lia. }
  assert (U2 : (x < p_nk p - 1)%nat). { apply Nat.div_lt_upper_bound; [lia|]. unfold sizeof_pk in Hi. lia. }
  destruct (A9 x U2) as (Q & Gx & S1 & KR & D1 & GO & RR & EN). destruct (B9 x U2) as (Q' & Gx' & S1' & KR' & D1' & GO' & RR' & EN').
  pose proof (sampled_det X p _ _ _ _ _ S1 S1') as <-. pose proof (key_rel_det _ _ _ _ GO GO' RR RR' KR KR') as <-.
  destruct RR as (pv & P). destruct (flags_exist pv) as (fl & F).
  specialize (EN _ pv fl (zero_bytes (rref_bytes p)) (repeat_length _ _) P F).
  specialize (EN' _ pv fl (zero_bytes (rref_bytes p)) (repeat_length _ _) P F).
  apply (chunk_nth _ _ (off_sf p x) (rref_bytes p)). { unfold pk_chunk in EN, EN'. congruence. } unfold off_sf. lia.
Qed.

(** *** Verification *)
Theorem verify_det fuel fuel' junk junk' pk m sig r r' : pk_wf p pk -> bytes sig -> (sizeof_sign p - 1 <= length sig)%nat ->
  LESS_verify X p fuel junk pk m sig = Ok r -> LESS_verify X p fuel' junk' pk m sig = Ok r' -> r = r'.
Proof.
  intros HP HB HL E E'.
  assert (OS : (off_seeds p <= length sig)%nat) by (unfold sizeof_sign, seed_storage_len in HL; lia).
  pose proof (LESS_verify_gp X p wf LX True fuel junk pk m sig HP HB OS (or_introl HL) ltac:(auto) ltac:(auto) ltac:(auto)) as V.
  pose proof (LESS_verify_gp X p wf LX True fuel' junk' pk m sig HP HB OS (or_introl HL) ltac:(auto) ltac:(auto) ltac:(auto)) as V'.
  rewrite E in V. rewrite E' in V'. cbn [gp] in V, V'.
  assert (D : forall f f', accepted X p f pk m sig -> rejected X p f' pk m sig -> False).
  { clear. intros f f' [(fws & t0 & tree & c & G & Vs & A1 & A2 & A3 & A4 & A5 & A6 & A7)] [(fws' & t0' & tree' & c' & G' & B1 & B2 & B3 & B4 & B5)].
    assert (fws = fws').
    { assert (X1 : expand_digest_to_fixed_weight X p (max f f') (repeat 0 (pT p)) (sig_digest p sig) = Ok fws).
      { eapply simr_eq; [|exact A2]. apply expand_digest_sim. apply Nat.le_max_l. }
      assert (X2 : expand_digest_to_fixed_weight X p (max f f') (repeat 0 (pT p)) (sig_digest p sig) = Ok fws').
      { eapply simr_eq; [|exact B2]. apply expand_digest_sim. apply Nat.le_max_r. }
      congruence. }
    subst fws'. rewrite A3 in B3. injection B3 as <- <-. destruct (sampledG_det X p _ _ _ _ _ _ _ A4 B4) as [<- <-].
    destruct B5 as [(t & a & T1 & T2 & T3 & T4)|(Vs' & L' & R' & NE)].
    - specialize (A6 t T1). unfold vround in A6. rewrite T2 in A6. destruct A6 as (Gx & a' & _ & DA & OA & _).
      rewrite (decodes_det p _ _ _ T3 DA) in T4. auto.
    - assert (Vs = Vs'); [|congruence]. apply (list_ext []); [lia|]. intros t Ht. eapply vround_det; [apply A6|apply R']; lia. }
  destruct V as [[-> V]|[-> V]]; destruct V' as [[-> V']|[-> V']]; auto; exfalso; eapply D; eauto.
Qed.
End R.
