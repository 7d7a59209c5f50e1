(** C26 (the part that holds) and C49: what accepted signatures with the same digest have in common, and what two
    accepted signatures with the same normal forms reveal. *)
From Coq Require Import Sorted Permutation.
From Verif Require Import Base BaseLemmas Sums Params ParamsProofs Fq FqProofs Prim Samplers Monomial Codes SeedTree Utils Less Sign Spec
  EnumProofs LinAlg BitCodec CodecProofs RrefCodec LayoutProofs RrefProofs MonoProofs ActionProofs CanonProofs SamplerProofs SeedTreeProofs
  FuelProofs SampleSpec RoundProofs VerifyProofs SignerProofs AnyKeyProofs PropCanon PropScheme ScriptRun DetProofs Toy PropApi
  LessSpec SpecSampling SpecBridge SpecMain SpecVerify PropSpec.

Section D.
Variable X : prim.
Variable p : params.
Notation N := (pN p).
Notation K := (pK p).

(** With challenge [chal], the rounds of [sig] give the normal forms [Vs] (the hash is not looked at). *)
Definition leads_to (pk sig chal : list Z) (Vs : list (list (list Z))) : Prop :=
  exists nodes seeds G0,
    published p chal nodes /\ length seeds = length nodes /\ Forall (fun s => length s = seed_len p) seeds /\
    bytes_at sig (off_seeds p) (length nodes * seed_len p) = concat seeds /\
    generator_of X p (bytes_at pk 0 (seed_len p)) G0 /\ length Vs = pT p /\
    forall t, (t < pT p)%nat -> checks_round X p pk sig (bytes_at sig 0 (hash_len p)) chal nodes seeds G0 t (nth t Vs []).

(** What is hashed: the normal forms, row by row, the message and the salt. *)
Definition hashed (Vs : list (list (list Z))) (m sig : list Z) : list Z := concat (map (@concat Z) Vs) ++ m ++ bytes_at sig 0 (hash_len p).

(** The strings hashed for two signatures (with the challenge that the digest of [sig] gives) are different and have
    the same hash: the two signatures exhibit a collision of the hash function. *)
Definition collide (pk m sig m' sig' : list Z) : Prop := exists chal Vs Vs',
  challenge_of X p (bytes_at sig (off_digest p) (hash_len p)) chal /\ leads_to pk sig chal Vs /\ leads_to pk sig' chal Vs' /\
  hashed Vs m sig <> hashed Vs' m' sig' /\ hash X (hashed Vs m sig) = hash X (hashed Vs' m' sig').

(** Matrix number [a] of the public key: G_0 for 0, otherwise the matrix packed in component [a - 1]. *)
Definition key_matrix (pk : list Z) (a : Z) (G : matf) : Prop :=
  if a =? 0 then generator_of X p (bytes_at pk 0 (seed_len p)) G
  else exists piv, reduced K N G /\ is_rref K N G piv /\
    packed_matrix p (bytes_at pk (off_sf p (Z.to_nat (a - 1))) (rref_bytes p)) G piv.
End D.

(** Validity is: the rounds lead to normal forms that hash, with message and salt, to the digest. *)
Lemma valid_leads_to X p pk m sig : valid X p pk m sig <->
  exists chal Vs, challenge_of X p (bytes_at sig (off_digest p) (hash_len p)) chal /\ leads_to X p pk sig chal Vs /\
    hash X (concat (map (@concat Z) Vs) ++ m ++ bytes_at sig 0 (hash_len p)) = bytes_at sig (off_digest p) (hash_len p).
Proof.
  unfold valid, leads_to. cbv zeta. split.
  - intros (chal & nodes & seeds & G0 & Vs & H1 & H2 & H3 & H4 & H5 & H6 & H7 & H8 & H9). exists chal, Vs. split; auto. split; auto.
    exists nodes, seeds, G0. auto 10.
  - intros (chal & Vs & H1 & (nodes & seeds & G0 & H2 & H3 & H4 & H5 & H6 & H7 & H8) & H9).
    exists chal, nodes, seeds, G0, Vs. auto 12.
Qed.

Section F.
Variable X : prim.
Variable p : params.
Hypothesis wf : wf_params p.
Hypothesis LX : lawful X (hash_len p).
Notation N := (pN p).
Notation K := (pK p).

Lemma leads_shape pk sig chal Vs : leads_to X p pk sig chal Vs -> Forall (shape K (N - K)) Vs.
Proof.
  intros (nodes & seeds & G0 & _ & _ & _ & _ & _ & LV & C). apply (Forall_nth_mat _ Vs (pT p)); auto.
  intros t Ht. pose proof (C t Ht) as CR. apply checks_vmem in CR. apply CR.
Qed.

Lemma flat_length V : shape K (N - K) V -> length (concat V) = (K * (N - K))%nat.
Proof.
  intros (H1 & H2). revert H1 H2. generalize (N - K)%nat as w. intros w. generalize K as k. intros k. revert V.
  induction k as [|k IH]; intros [|r V] H1 H2; try discriminate; auto.
  cbn [concat]. rewrite app_length. inversion H2; subst. rewrite IH; auto.
Qed.

Lemma flats_length Vs : Forall (shape K (N - K)) Vs -> length (concat (map (@concat Z) Vs)) = (length Vs * (K * (N - K)))%nat.
Proof.
  induction 1 as [|V Vs H F IH]; auto. cbn [map concat length]. rewrite app_length, IH, (flat_length V H). lia.
Qed.

Lemma flats_inj Vs Vs' : length Vs = length Vs' -> Forall (shape K (N - K)) Vs -> Forall (shape K (N - K)) Vs' ->
  map (@concat Z) Vs = map (@concat Z) Vs' -> Vs = Vs'.
Proof.
  intros HL F. revert Vs' HL. induction F as [|V Vs H F IH]; intros [|V' Vs'] HL F' E; try discriminate; auto.
  inversion F' as [|? ? H' F'']; subst. cbn [map] in E. injection E as E1 E2. f_equal; [|apply IH; auto].
  apply (concat_inj (N - K)); auto. { destruct H as [H _], H' as [H' _]. congruence. } { apply H. } { apply H'. }
Qed.

Lemma bytes_at_length l o n : length (bytes_at l o n) = n -> (0 < n)%nat -> (o + n <= length l)%nat.
Proof. unfold bytes_at. rewrite firstn_length, skipn_length. lia. Qed.
End F.

(** *** C26 *)

(** Two signatures valid for the same key and with the same digest have the same salt, are signatures of the same
    message, and their rounds lead to the same normal forms; otherwise the strings hashed for the two are a collision.
    What is missing for C26 is that the bytes of the two are the same: that is false (C26_refuted, C26_refuted_scaling). *)
Theorem C26_binding_partial : forall X p, wf_params p -> lawful X (hash_len p) ->
  forall pk m sig m' sig', valid X p pk m sig -> valid X p pk m' sig' ->
  bytes_at sig (off_digest p) (hash_len p) = bytes_at sig' (off_digest p) (hash_len p) ->
  (m = m' /\ bytes_at sig 0 (hash_len p) = bytes_at sig' 0 (hash_len p) /\
     exists chal Vs, challenge_of X p (bytes_at sig (off_digest p) (hash_len p)) chal /\
       leads_to X p pk sig chal Vs /\ leads_to X p pk sig' chal Vs) \/
  collide X p pk m sig m' sig'.
Proof.
  intros X p wf LX pk m sig m' sig' V V' ED. apply valid_leads_to in V. apply valid_leads_to in V'.
  destruct V as (chal & Vs & C1 & L1 & H1). destruct V' as (chal' & Vs' & C2 & L2 & H2).
  rewrite <- ED in C2, H2. pose proof (challenge_of_det X p _ _ _ C1 C2) as <-.
  set (s := concat (map (@concat Z) Vs) ++ m ++ bytes_at sig 0 (hash_len p)) in *.
  set (s' := concat (map (@concat Z) Vs') ++ m' ++ bytes_at sig' 0 (hash_len p)) in *.
  change s with (hashed p Vs m sig) in H1. change s' with (hashed p Vs' m' sig') in H2.
  destruct (list_eq_dec Z.eq_dec (hashed p Vs m sig) (hashed p Vs' m' sig')) as [E|NE]; [left|right; exists chal, Vs, Vs'; repeat split; auto; congruence].
  pose proof (leads_shape X p pk sig chal Vs L1) as F1. pose proof (leads_shape X p pk sig' chal Vs' L2) as F2.
  assert (LV : length Vs = length Vs').
  { destruct L1 as (? & ? & ? & _ & _ & _ & _ & _ & A & _). destruct L2 as (? & ? & ? & _ & _ & _ & _ & _ & B & _). congruence. }
  unfold hashed in E. apply app_inj_len in E; [|rewrite !(flats_length p) by auto; congruence]. destruct E as [EV E].
  apply (concat_inj (pK p * (pN p - pK p))) in EV.
  2:{ rewrite !map_length. auto. }
  2:{ apply Forall_forall. intros x Hx. apply in_map_iff in Hx. destruct Hx as (v & <- & Hv). apply flat_length. rewrite Forall_forall in F1. auto. }
  2:{ apply Forall_forall. intros x Hx. apply in_map_iff in Hx. destruct Hx as (v & <- & Hv). apply flat_length. rewrite Forall_forall in F2. auto. }
  apply (flats_inj p) in EV; auto. subst Vs'.
  assert (HL : (0 < hash_len p)%nat) by (unfold hash_len, seed_len; destruct (p_cat p); cbn; lia).
  assert (LD : length (bytes_at sig (off_digest p) (hash_len p)) = hash_len p).
  { rewrite <- H1. unfold hash. apply (law_h_len _ _ LX). }
  assert (LD' : length (bytes_at sig' (off_digest p) (hash_len p)) = hash_len p) by congruence.
  apply bytes_at_length in LD, LD'; auto.
  assert (S1 : length (bytes_at sig 0 (hash_len p)) = hash_len p) by (unfold bytes_at; rewrite firstn_length, skipn_length; lia).
  assert (S2 : length (bytes_at sig' 0 (hash_len p)) = hash_len p) by (unfold bytes_at; rewrite firstn_length, skipn_length; lia).
  apply app_inj_len in E. { destruct E as [-> E]. split; auto. split; auto. exists chal, Vs. auto. }
  apply (f_equal (@length Z)) in E. rewrite !app_length in E. lia.
Qed.

(** Conversely a signature whose rounds lead to the same normal forms, with the same salt and digest, can replace
    a valid one, for every message. So C26_binding_partial leaves nothing else out. *)
Theorem C26_replace : forall X p pk m sig sig' chal Vs,
  challenge_of X p (bytes_at sig (off_digest p) (hash_len p)) chal ->
  leads_to X p pk sig chal Vs -> leads_to X p pk sig' chal Vs -> valid X p pk m sig ->
  wf_params p -> lawful X (hash_len p) ->
  bytes_at sig 0 (hash_len p) = bytes_at sig' 0 (hash_len p) ->
  bytes_at sig (off_digest p) (hash_len p) = bytes_at sig' (off_digest p) (hash_len p) -> valid X p pk m sig'.
Proof.
  intros X p pk m sig sig' chal Vs C L L' V wf LX ES ED. apply valid_leads_to in V. destruct V as (chal2 & Vs2 & C2 & L2 & H).
  pose proof (challenge_of_det X p _ _ _ C C2) as <-. apply valid_leads_to. exists chal, Vs. rewrite <- ED. split; auto. split; auto.
  rewrite <- ES. rewrite <- H. do 2 f_equal. do 2 f_equal. 
  destruct L as (nodes & seeds & G & A1 & A2 & A3 & A4 & A5 & A6 & A7). destruct L2 as (nodes' & seeds' & G' & B1 & B2 & B3 & B4 & B5 & B6 & B7).
  pose proof (published_det p _ _ _ A1 B1) as <-. pose proof (generator_of_det X p _ _ _ A5 B5) as EG.
  assert (seeds = seeds') as <-. { apply (concat_inj (seed_len p)); auto; congruence. }
  apply (list_ext []); [congruence|]. intros t Ht. rewrite A6 in Ht.
  apply (checks_det X p wf LX pk sig (bytes_at sig 0 (hash_len p)) chal nodes seeds G G' t); auto.
Qed.

(** The same for signed messages that crypto_sign_open accepts: [n] bytes of message, then a signature that announces
    [c] seeds in the last byte. *)
Theorem C26_open_partial : forall X p, wf_params p -> lawful X (hash_len p) ->
  forall pk m0 sm n c sm' n' c', key_form p pk -> bytes sm -> bytes sm' ->
  Z.of_nat (length sm) < 2 ^ 64 -> Z.of_nat (length sm') < 2 ^ 64 ->
  length sm = (n + (off_seeds p + c * seed_len p + 1))%nat -> length sm' = (n' + (off_seeds p + c' * seed_len p + 1))%nat ->
  nth (length sm - 1) sm 0 = Z.of_nat c -> nth (length sm' - 1) sm' 0 = Z.of_nat c' -> (n <= length m0)%nat -> (n' <= length m0)%nat ->
  long_enough X p (skipn n sm) -> long_enough X p (skipn n' sm') ->
  forall fuel junk m1 len fuel' junk' m1' len',
  crypto_sign_open X p fuel junk m0 sm (Z.of_nat (length sm)) pk = Ok (0, m1, len) ->
  crypto_sign_open X p fuel' junk' m0 sm' (Z.of_nat (length sm')) pk = Ok (0, m1', len') ->
  bytes_at (skipn n sm) (off_digest p) (hash_len p) = bytes_at (skipn n' sm') (off_digest p) (hash_len p) ->
  (m1 = m1' /\ len = len' /\ bytes_at (skipn n sm) 0 (hash_len p) = bytes_at (skipn n' sm') 0 (hash_len p)) \/
  collide X p pk (firstn n sm) (skipn n sm) (firstn n' sm') (skipn n' sm').
Proof.
  intros X p wf LX pk m0 sm n c sm' n' c' KF HB HB' H64 H64' HL HL' HC HC' Hn Hn' LE LE' fuel junk m1 len fuel' junk' m1' len' E E' ED.
  assert (V : valid X p pk (firstn n sm) (skipn n sm) /\ m1 = firstn n sm ++ skipn n m0 /\ len = Some (Z.of_nat n)).
  { destruct (C42_open X p wf LX pk m0 sm (length sm) c KF HB H64 ltac:(lia) HC) as (R & O).
    destruct (Z.lt_ge_cases (Z.of_nat c) (max_seeds p)) as [Hc|Hc]; [|rewrite (R Hc) in E; discriminate].
    destruct (O n Hc HL Hn LE) as (_ & O2 & _). destruct (O2 _ _ _ _ _ E) as (-> & -> & [[_ V]|[C _]]); [auto|discriminate]. }
  assert (V' : valid X p pk (firstn n' sm') (skipn n' sm') /\ m1' = firstn n' sm' ++ skipn n' m0 /\ len' = Some (Z.of_nat n')).
  { destruct (C42_open X p wf LX pk m0 sm' (length sm') c' KF HB' H64' ltac:(lia) HC') as (R & O).
    destruct (Z.lt_ge_cases (Z.of_nat c') (max_seeds p)) as [Hc|Hc]; [|rewrite (R Hc) in E'; discriminate].
    destruct (O n' Hc HL' Hn' LE') as (_ & O2 & _). destruct (O2 _ _ _ _ _ E') as (-> & -> & [[_ V']|[C _]]); [auto|discriminate]. }
  destruct V as (V & -> & ->), V' as (V' & -> & ->).
  destruct (C26_binding_partial X p wf LX pk _ _ _ _ V V' ED) as [(EM & ES & _)|C]; [left|right; exact C].
  assert (n = n') as <-.
  { apply (f_equal (@length Z)) in EM. rewrite !firstn_length in EM. lia. }
  rewrite EM. auto.
Qed.

(** *** C49 *)

Section S49.
Variable X : prim.
Variable p : params.
Hypothesis wf : wf_params p.
Hypothesis LX : lawful X (hash_len p).
Notation N := (pN p).
Notation K := (pK p).

(** Every round relates its normal form to a matrix of the key. *)
Lemma round_key pk sig salt chal nodes seeds G0 t V : generator_of X p (bytes_at pk 0 (seed_len p)) G0 ->
  checks_round X p pk sig salt chal nodes seeds G0 t V ->
  exists A M, key_matrix X p pk (nth t chal 0) A /\ equivalent_codes K N A M /\ normal_form K N M V.
Proof.
  intros GO. unfold checks_round, key_matrix. destruct (nth t chal 0 =? 0).
  - intros (u & s & pm & cf & M & _ & _ & MO & TM & NF). exists G0, M. split; auto. split; auto.
    apply (monomial_equivalent p G0 {| m_perm := pm; m_coef := cf |}); auto. apply (monomial_of_ok X p wf LX _ _ _ MO).
  - intros (H & pv & rp & rc & M & PM & RD & RR & RA & GA & TA & NF). exists H, M. split. { exists pv. auto. } split; auto.
    apply (action_equivalent p wf H {| a_perm := rp; a_coef := rc |}); auto. apply good_action_iff. exact GA.
Qed.
End S49.

(** Two signatures whose rounds lead to the same normal forms reveal, for every round, an equivalence between the
    matrices of the key which the two challenges ask for. *)
Theorem C49_special_soundness : forall X p, wf_params p -> lawful X (hash_len p) ->
  forall pk sig chal sig' chal' Vs, leads_to X p pk sig chal Vs -> leads_to X p pk sig' chal' Vs ->
  forall t, (t < pT p)%nat -> exists A B,
    key_matrix X p pk (nth t chal 0) A /\ key_matrix X p pk (nth t chal' 0) B /\ equivalent_codes (pK p) (pN p) A B.
Proof.
  intros X p wf LX pk sig chal sig' chal' Vs (nodes & seeds & G & _ & _ & _ & _ & A5 & _ & A7) (nodes' & seeds' & G' & _ & _ & _ & _ & B5 & _ & B7) t Ht.
  destruct (round_key X p wf LX _ _ _ _ _ _ _ _ _ A5 (A7 t Ht)) as (A & M & K1 & E1 & N1).
  destruct (round_key X p wf LX _ _ _ _ _ _ _ _ _ B5 (B7 t Ht)) as (B & M' & K2 & E2 & N2).
  exists A, B. split; auto. split; auto. apply (equivalent_trans _ _ A M B); auto.
  apply (equivalent_trans _ _ M M' B). { eapply C33_equivalence; eauto. } apply equivalent_sym. auto.
Qed.

(** The matrices of the key are pairwise inequivalent. *)
Definition unrelated X p (pk : list Z) : Prop := forall a b A B, 0 <= a < Z.of_nat (p_nk p) -> 0 <= b < Z.of_nat (p_nk p) -> a <> b ->
  key_matrix X p pk a A -> key_matrix X p pk b B -> ~ equivalent_codes (pK p) (pN p) A B.

(** For such a key, which nobody can have a secret for, every choice of normal forms can be answered for at most one
    challenge. *)
Theorem C49_one_challenge : forall X p, wf_params p -> lawful X (hash_len p) ->
  forall pk, unrelated X p pk -> forall d d' chal chal', challenge_of X p d chal -> challenge_of X p d' chal' ->
  forall sig sig' Vs, leads_to X p pk sig chal Vs -> leads_to X p pk sig' chal' Vs -> chal = chal'.
Proof.
  intros X p wf LX pk U d d' chal chal' C C' sig sig' Vs L L'.
  pose proof (challenge_of_ok X p wf _ _ C) as O. pose proof (challenge_of_ok X p wf _ _ C') as O'.
  destruct O as (L1 & _ & R1). destruct O' as (L2 & _ & R2).
  apply (list_ext 0); [congruence|]. intros t Ht. rewrite L1 in Ht.
  destruct (C49_special_soundness X p wf LX pk sig chal sig' chal' Vs L L' t Ht) as (A & B & K1 & K2 & E).
  destruct (Z.eq_dec (nth t chal 0) (nth t chal' 0)) as [|NE]; auto. exfalso.
  rewrite Forall_forall in R1, R2.
  assert (I1 : In (nth t chal 0) chal) by (apply nth_In; rewrite L1; exact Ht).
  assert (I2 : In (nth t chal' 0) chal') by (apply nth_In; rewrite L2; exact Ht).
  apply (U _ _ A B (R1 _ I1) (R2 _ I2) NE K1 K2 E).
Qed.

(** What an honest signature leads to: the normal forms of the signer's commitments. *)
Theorem C49_commitments : forall X p, wf_params p -> lawful X (hash_len p) ->
  forall r1 sk pk r1', generates X p r1 sk pk r1' ->
  forall r2 m old sig num r2', length old = sizeof_sign p -> bytes old -> bytes m -> signs X p r2 sk m old sig num r2' ->
  exists root salt rng1 G0 chal Vs, x_squeeze X (seed_len p) r2 = (root, rng1) /\ x_squeeze X (hash_len p) rng1 = (salt, r2') /\
    generator_of X p (bytes_at sk (off_sk_g0 p) (seed_len p)) G0 /\
    challenge_of X p (bytes_at sig (off_digest p) (hash_len p)) chal /\ leads_to X p pk sig chal Vs /\
    forall t, (t < pT p)%nat -> exists perm coef piv, commitment_of X p salt root G0 t perm coef piv (nth t Vs []).
Proof.
  intros X p wf LX r1 sk pk r1' HG r2 m old sig num r2' H1 H2 H3 HS.
  destruct (C39_keys X p wf LX _ _ _ _ HG) as (KF & SL & _).
  destruct (generates_keygen X p wf LX _ _ _ _ HG) as (f & Hf).
  assert (KP : keypair X p f sk pk).
  { exists (fun _ _ => 0), r1, r1', (repeat 0 (sizeof_sk p)), (repeat 0 (sizeof_pk p)). rewrite !repeat_length.
    split; auto. split; auto. split; [apply zero_bytes|]. apply Hf; auto; try apply repeat_length. apply zero_bytes. }
  pose proof (keypair_honest X p f sk pk wf LX KP) as HH.
  destruct (signs_sign X p wf LX r2 sk m old sig num r2' SL H1 H2 H3 HS) as (g & Hg).
  pose proof (Hg g (fun _ _ => 0) (Nat.le_refl g)) as ES.
  pose proof (C01_correct X p wf LX f sk pk KP g _ r2 m old sig num r2' H1 H2 ES g (fun _ _ => 0) (Nat.le_refl g)) as CA.
  assert (T : sign_stuck X p True g (fun _ _ => 0) r2 sk m).
  { unfold sign_stuck. destruct (x_squeeze X (seed_len p) r2). destruct (x_squeeze X (hash_len p) x). cbv zeta. auto 10. }
  pose proof (LESS_sign_drawn X p wf LX True g (fun _ _ => 0) r2 sk m old T SL H1 H2) as S. rewrite ES in S. cbn [gp] in S. clear ES T.
  destruct S as (tree & c & G & acts & Vs & chal & fl & SG & HD & _).
  pose proof SG as [A1 A2 A3 A4 A5 A6 A7 A8 A9 A10 A11 A12 A13 A14 A15 A16 A17 AZ A18].
  unfold drawn in HD. destruct (squeeze_ok X p LX (seed_len p) r2) as [EL EB].
  destruct (x_squeeze X (seed_len p) r2) as [root rng1] eqn:E1. cbn [fst] in EL, EB.
  destruct (x_squeeze X (hash_len p) rng1) as [salt rng2] eqn:E2. destruct HD as (D1 & -> & D3).
  assert (TR : nth 0 tree [] = root).
  { destruct (generate_seed_tree_spec X p (repeat 0 (pT p)) (repeat_length _ _) (repeat (repeat 0 (seed_len p)) (num_nodes p)) root salt LX (zero_mat_shape _ _) EL EB) as (t' & E' & _ & _ & R & _).
    - apply Forall_forall. intros x Hx. apply repeat_spec in Hx. subst. apply zero_bytes.
    - rewrite D3 in E'. injection E' as <-. exact R. }
  pose proof (expand_challenge_of X p wf g _ _ (A11 g (Nat.le_refl g))) as CO.
  assert (LE : long_enough X p sig). { apply C41_full_size; auto. lia. }
  pose proof (key_form_good p wf pk KF) as GP.
  pose proof (LESS_verify_gp X p wf LX True g (fun _ _ => 0) pk m sig (good_pk_wf p pk GP) A2) as V. rewrite CA in V. cbn [gp] in V.
  destruct V as [(_ & AC)|[R _]]; auto; [apply LE|eapply seeds_fit_full; eauto| |discriminate].
  destruct AC as [(fws & t0 & tr & c' & fG & Vs' & B1 & B2 & B3 & B4 & B5 & B6 & B7)].
  rewrite (A11 g (Nat.le_refl g)) in B2. injection B2 as <-.
  destruct (honest_g0 X p f sk pk g g c G c' fG HH A6 B4) as [-> ->].
  assert (OS : (off_seeds p + num * seed_len p <= length sig)%nat). { rewrite A1. unfold sizeof_sign, seed_storage_len. lia. }
  assert (EV : Vs = Vs').
  { apply (rounds_match X p wf LX f g g sk pk m sig num tree c G acts Vs chal fl HH SG sig OS eq_refl A16) with (t0 := t0) (tr := tr); auto.
    intros t Ht Hn. destruct (A18 t Ht Hn) as (Q & b & R1 & R2 & R3 & R4 & _). exists 1, Q, b.
    split. { apply one_nz. } auto. }
  subst Vs'.
  destruct (sig_seeds_ok X p wf sig LE chal fl CO A12) as (S1 & S2 & S3).
  exists root, salt, rng1, (ent G), chal, Vs. split; auto. split; auto.
  split. { apply (sampledG_generator_of X p wf LX g _ c). exact A6. }
  split; auto. split.
  - exists (enum (pub fl) (num_nodes p)), (sig_seeds p sig fl), (ent G). split. { apply (published_enum p wf); auto. }
    split; auto. split; auto. split; auto. split. { apply (sampledG_generator_of X p wf LX g _ c). exact B4. }
    split; auto. intros t Ht. apply (vround_checks X p wf LX pk sig GP A2 LE g chal fl t0 tr); auto.
  - intros t Ht. rewrite D1 in A5, A8. destruct (commit_round_spec X p wf LX g tree salt root G t _ _ A5 TR Ht (A8 t Ht)) as (pm & cf & pv & C1 & _).
    exists pm, cf, pv. exact C1.
Qed.

(** So signatures of two messages made with the same random bytes lead to the same normal forms, and
    C49_special_soundness applies to them. *)
Theorem C49_same_randomness : forall X p, wf_params p -> lawful X (hash_len p) ->
  forall r1 sk pk r1', generates X p r1 sk pk r1' ->
  forall r2 m old sig num r2' m' old' sig' num' r2'', length old = sizeof_sign p -> bytes old -> bytes m ->
  length old' = sizeof_sign p -> bytes old' -> bytes m' ->
  signs X p r2 sk m old sig num r2' -> signs X p r2 sk m' old' sig' num' r2'' ->
  exists chal chal' Vs, challenge_of X p (bytes_at sig (off_digest p) (hash_len p)) chal /\
    challenge_of X p (bytes_at sig' (off_digest p) (hash_len p)) chal' /\ leads_to X p pk sig chal Vs /\ leads_to X p pk sig' chal' Vs.
Proof.
  intros X p wf LX r1 sk pk r1' HG r2 m old sig num r2' m' old' sig' num' r2'' H1 H2 H3 H1' H2' H3' S S'.
  destruct (C49_commitments X p wf LX _ _ _ _ HG _ _ _ _ _ _ H1 H2 H3 S) as (root & salt & rng & G & chal & Vs & A1 & A2 & A3 & A4 & A5 & A6).
  destruct (C49_commitments X p wf LX _ _ _ _ HG _ _ _ _ _ _ H1' H2' H3' S') as (root' & salt' & rng' & G' & chal' & Vs' & B1 & B2 & B3 & B4 & B5 & B6).
  rewrite A1 in B1. injection B1 as <- <-. rewrite A2 in B2. injection B2 as <- <-.
  pose proof (generator_of_det X p _ _ _ A3 B3) as EG.
  assert (Vs = Vs') as <-.
  { assert (L1 : length Vs = pT p) by (destruct A5 as (? & ? & ? & _ & _ & _ & _ & _ & L & _); exact L).
    assert (L2 : length Vs' = pT p) by (destruct B5 as (? & ? & ? & _ & _ & _ & _ & _ & L & _); exact L).
    apply (list_ext []); [congruence|]. intros t Ht. rewrite L1 in Ht.
    destruct (A6 t Ht) as (pm & cf & pv & C1). destruct (B6 t Ht) as (pm' & cf' & pv' & C2).
    apply (commitment_det X p wf LX salt root G G' t pm cf pv _ pm' cf' pv' _ EG C1 C2). }
  exists chal, chal', Vs. auto.
Qed.

(** *** Examples *)

(** The last byte of a signature that publishes few seeds is not looked at: a second valid signature with the
    same digest. *)
Definition toy_sig80' : list Z := removelast toy_sig80 ++ [77].
Example C26_binding_example : valid toyX toy_params toy_pk toy_msg toy_sig80 /\ valid toyX toy_params toy_pk toy_msg toy_sig80' /\
  toy_sig80 <> toy_sig80' /\
  bytes_at toy_sig80 (off_digest toy_params) (hash_len toy_params) = bytes_at toy_sig80' (off_digest toy_params) (hash_len toy_params).
Proof.
  split. { apply C41_example. } split.
  - destruct (C39_keys toyX toy_params toy_wf toyX_lawful _ _ _ _ C39_example) as (KF & _ & _).
    assert (HB : bytes toy_sig80') by (apply bytes_of_check; vm_compute; reflexivity).
    assert (HL : long_enough toyX toy_params toy_sig80').
    { apply C41_full_size; [apply toy_wf|]. apply Nat.leb_le. vm_compute. reflexivity. }
    destruct (C41_verify toyX toy_params toy_wf toyX_lawful toy_pk toy_msg toy_sig80' KF (bytes_of_check toy_msg eq_refl) HB HL) as (_ & V & _).
    assert (E : LESS_verify toyX toy_params 1000 (fun _ _ => 0) toy_pk toy_msg toy_sig80' = Ok 1) by (apply toy_accepts_prefix; [lia|exact HB|reflexivity]).
    destruct (V _ _ _ E) as [[_ R]|[R _]]; [exact R|discriminate].
  - split. { intros C. apply (f_equal (fun l => last l 0)) in C. vm_compute in C. discriminate. } vm_compute. reflexivity.
Qed.

(** Two messages signed with the same random bytes: the challenges differ in rounds 3 and 4, so the two signatures
    reveal how matrices 1 and 2 of the key are related to matrix 0. *)
Lemma toy_challenge_of s c :
  expand_digest_to_fixed_weight toyX toy_params 1000 (repeat 0 (pT toy_params)) (bytes_at s (off_digest toy_params) (hash_len toy_params)) = Ok c ->
  challenge_of toyX toy_params (bytes_at s (off_digest toy_params) (hash_len toy_params)) c.
Proof. apply (expand_challenge_of toyX toy_params toy_wf 1000). Qed.

Example C49_example : exists Vs, leads_to toyX toy_params toy_pk toy_sig80 [0; 0; 2; 1; 0; 0] Vs /\ leads_to toyX toy_params toy_pk toy_sig80b [0; 0; 2; 0; 2; 0] Vs.
Proof.
  assert (S : signs toyX toy_params 80 toy_sk [1; 2; 4] (repeat 3 (sizeof_sign toy_params)) toy_sig80b 4 toy_rng80).
  { apply (proj1 (C40_sign toyX toy_params toy_wf toyX_lawful 80 toy_sk [1; 2; 4] (repeat 3 (sizeof_sign toy_params)) toy_sig80b 4 toy_rng80
      eq_refl (repeat_length _ _) (bytes_of_check (repeat 3 (sizeof_sign toy_params)) eq_refl) (bytes_of_check [1; 2; 4] eq_refl)) 1000%nat toy_junk).
    exact toy_sign_run_b. }
  destruct (C49_same_randomness toyX toy_params toy_wf toyX_lawful _ _ _ _ C39_example _ _ _ _ _ _ _ _ _ _ _
    (repeat_length _ _) (bytes_of_check (repeat 3 (sizeof_sign toy_params)) eq_refl) (bytes_of_check toy_msg eq_refl)
    (repeat_length _ _) (bytes_of_check (repeat 3 (sizeof_sign toy_params)) eq_refl) (bytes_of_check [1; 2; 4] eq_refl) C40_example S)
    as (c & c' & Vs & C & C' & L & L').
  assert (E : challenge_of toyX toy_params (bytes_at toy_sig80 (off_digest toy_params) (hash_len toy_params)) [0; 0; 2; 1; 0; 0])
    by (apply toy_challenge_of; vm_compute; reflexivity).
  assert (E' : challenge_of toyX toy_params (bytes_at toy_sig80b (off_digest toy_params) (hash_len toy_params)) [0; 0; 2; 0; 2; 0])
    by (apply toy_challenge_of; vm_compute; reflexivity).
  rewrite <- (challenge_of_det _ _ _ _ _ C E), <- (challenge_of_det _ _ _ _ _ C' E'). exists Vs. auto.
Qed.

(** A key with unrelated matrices, and a signature with the challenge of [toy_sig80] that leads somewhere for it. *)
Definition zero_col (K : nat) (M : matf) (c : nat) : Prop := forall i, (i < K)%nat -> M i c == 0.

Lemma same_code_zero K N A B c : same_code K N A B -> (c < N)%nat -> zero_col K A c -> zero_col K B c.
Proof.
  intros S Hc Z i Hi. destruct (proj2 (S (B i)) (row_in_code K N B i Hi)) as (a & Ha). rewrite (Ha c Hc).
  apply sumn_zero. intros k Hk. rewrite (Z k Hk). rewrite Z.mul_0_r. reflexivity.
Qed.

(** Equivalent codes have as many non-zero columns. *)
Lemma equivalent_zero K N A B : equivalent_codes K N A B -> exists g, bij N g /\
  forall c, (c < N)%nat -> ~ zero_col K B c -> ~ zero_col K A (g c).
Proof.
  intros (M & g & e & (BG & He & HM) & S). exists g. split; auto. intros c Hc NB ZA. apply NB.
  apply (same_code_zero K N M B c S Hc). intros i Hi. rewrite (HM i c Hi Hc), (ZA i Hi), Z.mul_0_r. reflexivity.
Qed.

Definition toy_G1 : matf := fun i j => if Nat.eqb i j then 1 else 0.
Definition toy_G2 : matf := fun i j => if Nat.eqb i j then 1 else if Nat.eqb i 0 && Nat.eqb j 3 then 1 else 0.
Definition toy_pack (G : matf) : list Z := okd [] (compress_rref toy_params (repeat 0 (rref_bytes toy_params)) (tomat toy_params G) ([1; 1; 1] ++ repeat 0 129)).
Definition toy_unrelated : list Z := Eval vm_compute in firstn (seed_len toy_params) toy_pk ++ toy_pack toy_G1 ++ toy_pack toy_G2.

Lemma toy_G1_ok : reduced 3 132 toy_G1 /\ is_rref 3 132 toy_G1 (fun i => i) /\
  packed_matrix toy_params (bytes_at toy_unrelated (off_sf toy_params 0) (rref_bytes toy_params)) toy_G1 (fun i => i).
Proof.
  split; [|split].
  - intros i j _ _. unfold toy_G1, fq. destruct (i =? j)%nat; lia.
  - split; [lia|]. split; [lia|]. split. { reflexivity. }
    intros i c Hi Hc. unfold toy_G1. destruct (Nat.eqb_spec i c); lia.
  - split. { vm_compute. reflexivity. } split. { apply bytes_of_check. vm_compute. reflexivity. } vm_compute. reflexivity.
Qed.

Lemma toy_G2_ok : reduced 3 132 toy_G2 /\ is_rref 3 132 toy_G2 (fun i => i) /\
  packed_matrix toy_params (bytes_at toy_unrelated (off_sf toy_params 1) (rref_bytes toy_params)) toy_G2 (fun i => i).
Proof.
  split; [|split].
  - intros i j _ _. unfold toy_G2, fq. destruct (i =? j)%nat; [lia|]. destruct ((i =? 0)%nat && (j =? 3)%nat); lia.
  - split; [lia|]. split; [lia|]. split.
    { intros i j Hi Hj. unfold toy_G2. destruct (Nat.eqb_spec i j); auto. destruct (Nat.eqb_spec j 3); [lia|]. rewrite andb_false_r. auto. }
    intros i c Hi Hc. unfold toy_G2. destruct (Nat.eqb_spec i c); [lia|]. destruct (Nat.eqb_spec c 3); [lia|]. rewrite andb_false_r. auto.
  - split. { vm_compute. reflexivity. } split. { apply bytes_of_check. vm_compute. reflexivity. } vm_compute. reflexivity.
Qed.

Lemma toy_key_form : key_form toy_params toy_unrelated.
Proof.
  split. { vm_compute. reflexivity. } intros x Hx. cbn in Hx.
  assert (x = 0 \/ x = 1)%nat as [-> | ->] by lia; [exists toy_G1|exists toy_G2]; exists (fun i => i); [apply toy_G1_ok|apply toy_G2_ok].
Qed.

(** The matrix in a component is determined by its bytes. *)
Lemma packed_unique p l G pv G' pv' : wf_params p -> reduced (pK p) (pN p) G -> is_rref (pK p) (pN p) G pv -> packed_matrix p l G pv ->
  reduced (pK p) (pN p) G' -> is_rref (pK p) (pN p) G' pv' -> packed_matrix p l G' pv' ->
  forall i j, (i < pK p)%nat -> (j < pN p)%nat -> G i j = G' i j.
Proof.
  intros wf A1 A2 A3 B1 B2 B3 i j Hi Hj.
  pose proof (decodesG_det p _ _ _ (packed_matrix_decodes p wf _ _ _ A1 A2 A3) (packed_matrix_decodes p wf _ _ _ B1 B2 B3)) as E.
  rewrite <- (tomat_ent p G i j Hi Hj), <- (tomat_ent p G' i j Hi Hj), E. auto.
Qed.

(** Matrix 0 has more than four non-zero columns, matrix 1 has three, matrix 2 has four. *)
Lemma toy_cols0 A : key_matrix toyX toy_params toy_unrelated 0 A -> forall c, (c < 5)%nat -> ~ zero_col 3 A c.
Proof.
  unfold key_matrix. change (0 =? 0) with true. cbn iota. intros HG.
  destruct (generator_SF_seed_expand toyX toy_params 1000 (junk_rref toy_params toy_junk 1) (bytes_at toy_unrelated 0 (seed_len toy_params))) as [r| |] eqn:E;
    [|vm_compute in E; discriminate|vm_compute in E; discriminate].
  pose proof (generator_sampled toyX toy_params toy_wf 1000 _ (bytes_at toy_unrelated 0 (seed_len toy_params)) (junk_rref_mem toy_params toy_junk 1)) as W.
  rewrite E in W. cbn [wp] in W. destruct W as (_ & M & SG). pose proof (sampledG_generator_of toyX toy_params toy_wf toyX_lawful _ _ _ _ SG) as GO.
  pose proof (generator_of_det toyX toy_params _ _ _ HG GO) as EG.
  assert (V : (ent M 0 0, ent M 1 1, ent M 2 2, ent M 0 3, ent M 0 4) = (1, 1, 1, 82, 46)).
  { assert (Q : (r <- generator_SF_seed_expand toyX toy_params 1000 (junk_rref toy_params toy_junk 1) (bytes_at toy_unrelated 0 (seed_len toy_params)) ;;
        m <- generator_rref_expand toy_params (repeat (repeat 0 132) 3) r ;; Ok (ent m 0 0, ent m 1 1, ent m 2 2, ent m 0 3, ent m 0 4)) = Ok (1, 1, 1, 82, 46))
      by (vm_compute; reflexivity).
    rewrite E in Q. cbn [bind] in Q. destruct SG as (_ & S2 & _). rewrite (S2 _ (zero_mat_shape 3 132)) in Q. cbn [bind] in Q. congruence. }
  injection V as V0 V1 V2 V3 V4. intros c Hc Z.
  assert (EQ : forall i j, (i < 3)%nat -> (j < 132)%nat -> A i j = ent M i j) by exact EG.
  assert (NZ : forall a, 0 < a < 127 -> ~ a == 0). { intros a Ha C. apply cong_eq in C; unfold fq; lia. }
  destruct c as [|[|[|[|[|c]]]]]; [| | | | |lia].
  - apply (NZ 1); [lia|]. rewrite <- V0, <- EQ by lia. apply Z. lia.
  - apply (NZ 1); [lia|]. rewrite <- V1, <- EQ by lia. apply Z. lia.
  - apply (NZ 1); [lia|]. rewrite <- V2, <- EQ by lia. apply Z. lia.
  - apply (NZ 82); [lia|]. rewrite <- V3, <- EQ by lia. apply Z. lia.
  - apply (NZ 46); [lia|]. rewrite <- V4, <- EQ by lia. apply Z. lia.
Qed.

Lemma toy_cols1 A : key_matrix toyX toy_params toy_unrelated 1 A -> forall c, (c < 132)%nat -> (c < 3)%nat <-> ~ zero_col 3 A c.
Proof.
  unfold key_matrix. change (1 =? 0) with false. cbn iota. intros (pv & H1 & H2 & H3) c Hc.
  destruct toy_G1_ok as (G1 & G2 & G3). pose proof (packed_unique toy_params _ _ _ _ _ toy_wf H1 H2 H3 G1 G2 G3) as E.
  change (forall i j, (i < 3)%nat -> (j < 132)%nat -> A i j = toy_G1 i j) in E. split.
  - intros H Z. specialize (Z c H). rewrite E in Z by lia. unfold toy_G1 in Z. rewrite Nat.eqb_refl in Z. apply one_nz. exact Z.
  - intros NZ. destruct (Nat.lt_ge_cases c 3); auto. exfalso. apply NZ. intros i Hi. rewrite E by auto. unfold toy_G1.
    destruct (Nat.eqb_spec i c); [lia|]. reflexivity.
Qed.

Lemma toy_cols2 A : key_matrix toyX toy_params toy_unrelated 2 A -> forall c, (c < 132)%nat -> (c < 4)%nat <-> ~ zero_col 3 A c.
Proof.
  unfold key_matrix. change (2 =? 0) with false. cbn iota. intros (pv & H1 & H2 & H3) c Hc.
  destruct toy_G2_ok as (G1 & G2 & G3). pose proof (packed_unique toy_params _ _ _ _ _ toy_wf H1 H2 H3 G1 G2 G3) as E.
  change (forall i j, (i < 3)%nat -> (j < 132)%nat -> A i j = toy_G2 i j) in E. split.
  - intros H Z. destruct (Nat.eq_dec c 3) as [->|Nc].
    + specialize (Z 0%nat ltac:(lia)). rewrite E in Z by lia. apply one_nz. exact Z.
    + specialize (Z c ltac:(lia)). rewrite E in Z by lia. unfold toy_G2 in Z. rewrite Nat.eqb_refl in Z. apply one_nz. exact Z.
  - intros NZ. destruct (Nat.lt_ge_cases c 4); auto. exfalso. apply NZ. intros i Hi. rewrite E by auto. unfold toy_G2.
    destruct (Nat.eqb_spec i c); [lia|]. destruct (Nat.eqb_spec c 3); [lia|]. rewrite andb_false_r. reflexivity.
Qed.

Lemma NoDup_map_on (g : nat -> nat) l : (forall x y, In x l -> In y l -> g x = g y -> x = y) -> NoDup l -> NoDup (map g l).
Proof.
  induction l as [|a l IH]; intros H ND; cbn; constructor; inversion ND; subst.
  - intros C. apply in_map_iff in C. destruct C as (b & E & Hb). apply H in E; [subst; contradiction|right; auto|left; auto].
  - apply IH; auto. intros x y Hx Hy. apply H; right; auto.
Qed.

Lemma fewer_columns A B n m : (forall c, (c < 132)%nat -> (c < n)%nat <-> ~ zero_col 3 A c) -> (n < m <= 5)%nat ->
  (forall c, (c < m)%nat -> ~ zero_col 3 B c) -> ~ equivalent_codes 3 132 A B.
Proof.
  intros HA Hm HB E. destruct (equivalent_zero 3 132 A B E) as (g & (G1 & G2) & Z).
  assert (R : forall c, (c < m)%nat -> (g c < n)%nat).
  { intros c Hc. apply HA. { apply G1. lia. } apply Z; [lia|]. auto. }
  assert (ND : NoDup (map g (seq 0 m))).
  { apply NoDup_map_on; [|apply seq_NoDup]. intros x y Hx Hy. apply in_seq in Hx, Hy. apply G2; lia. }
  apply (NoDup_incl_length (l' := seq 0 n)) in ND. { rewrite map_length, !seq_length in ND. lia. }
  intros x Hx. apply in_map_iff in Hx. destruct Hx as (c & <- & Hc). apply in_seq in Hc. apply in_seq. specialize (R c). lia.
Qed.

Example C49_unrelated_example : unrelated toyX toy_params toy_unrelated.
Proof.
  intros a b A B Ha Hb Hab KA KB. cbn in Ha, Hb.
  assert (F : forall x y X Y, key_matrix toyX toy_params toy_unrelated x X -> key_matrix toyX toy_params toy_unrelated y Y ->
    (x = 1 /\ (y = 0 \/ y = 2)) \/ (x = 2 /\ y = 0) -> ~ equivalent_codes 3 132 X Y).
  { intros x y U V KU KV [(-> & [-> | ->])|(-> & ->)].
    - apply (fewer_columns U V 3 5); [apply toy_cols1; auto|lia|apply toy_cols0; auto].
    - apply (fewer_columns U V 3 4); [apply toy_cols1; auto|lia|]. intros c Hc. apply toy_cols2; auto. lia.
    - apply (fewer_columns U V 4 5); [apply toy_cols2; auto|lia|apply toy_cols0; auto]. }
  change (~ equivalent_codes 3 132 A B).
  assert (D : ((a = 1 /\ (b = 0 \/ b = 2)) \/ (a = 2 /\ b = 0)) \/ ((b = 1 /\ (a = 0 \/ a = 2)) \/ (b = 2 /\ a = 0))) by lia.
  destruct D as [D|D]; [apply (F a b A B KA KB D)|]. intros E. apply (F b a B A KB KA D). apply equivalent_sym. exact E.
Qed.

(** Whether a signature leads somewhere does not depend on the matrices of the key. *)
Lemma leads_any_key X p pk pk' sig chal Vs : wf_params p -> challenge_ok p chal -> key_form p pk' ->
  bytes_at pk 0 (seed_len p) = bytes_at pk' 0 (seed_len p) -> leads_to X p pk sig chal Vs -> exists Vs', leads_to X p pk' sig chal Vs'.
Proof.
  intros wf HC (_ & KF) E (nodes & seeds & G & A1 & A2 & A3 & A4 & A5 & A6 & A7).
  destruct (list_choice [] (pT p) (fun t V => checks_round X p pk' sig (bytes_at sig 0 (hash_len p)) chal nodes seeds G t V)) as (Vs' & L & C).
  - intros t Ht. specialize (A7 t Ht). unfold checks_round in *. destruct (nth t chal 0 =? 0) eqn:E0; [eauto|].
    destruct A7 as (H & pv & rp & rc & M & _ & _ & _ & RA & GA & _ & _).
    assert (NZ : nz chal t = true) by (unfold nz; rewrite E0; auto).
    destruct (KF _ (key_index p chal HC t Ht NZ)) as (H' & pv' & B1 & B2 & B3).
    destruct (C18_verifier p wf (repeat (repeat 0 (pN p - pK p)) (pK p)) (tomat p H') {| a_perm := rp; a_coef := rc |}) as (V & M' & _ & TM & NF).
    { apply zero_mat_shape. }
    { split; [apply tomat_shape|]. split. { intros i j Hi Hj. rewrite tomat_ent; auto. }
      apply (rref_full_rank _ _ _ pv'). apply (is_rref_ext p H'); auto. intros i j Hi Hj. symmetry. apply tomat_ent; auto. }
    { exact GA. }
    exists V, (ent (tomat p H')), pv', rp, rc, M'. split. { apply (packed_matrix_ext p _ H' _ pv' pv'); auto. intros i j Hi Hj. symmetry. apply tomat_ent; auto. }
    split. { intros i j Hi Hj. rewrite tomat_ent; auto. }
    split. { apply (is_rref_ext p H'); auto. intros i j Hi Hj. symmetry. apply tomat_ent; auto. }
    auto.
  - exists Vs', nodes, seeds, G. rewrite <- E. auto 10.
Qed.

Example C49_leads_example : exists Vs, leads_to toyX toy_params toy_unrelated toy_sig80 [0; 0; 2; 1; 0; 0] Vs.
Proof.
  destruct C49_example as (Vs & L & _). apply (leads_any_key toyX toy_params toy_pk toy_unrelated _ _ Vs toy_wf); auto.
  - apply (challenge_of_ok toyX toy_params toy_wf (bytes_at toy_sig80 (off_digest toy_params) (hash_len toy_params))).
    apply toy_challenge_of. vm_compute. reflexivity.
  - apply toy_key_form.
Qed.

Print Assumptions C26_binding_partial.
Print Assumptions C26_replace.
Print Assumptions C26_open_partial.
Print Assumptions C49_special_soundness.
Print Assumptions C49_one_challenge.
Print Assumptions C49_commitments.
Print Assumptions C49_same_randomness.
