(** Key generation, signing and verification compute what LessSpec.v specifies. *)
From Coq Require Import Sorted Permutation.
From Verif Require Import Base BaseLemmas Params ParamsProofs Fq FqProofs Prim Samplers Monomial Codes SeedTree Utils Less Spec
  EnumProofs LinAlg BitCodec CodecProofs RrefCodec LayoutProofs RrefProofs MonoProofs ActionProofs CanonProofs SamplerProofs SeedTreeProofs
  FuelProofs SampleSpec RoundProofs VerifyProofs SignerProofs AnyKeyProofs PropCanon PropScheme ScriptRun DetProofs LessSpec SpecSampling SpecBridge.

Section B.
Variable X : prim.
Variable p : params.
Hypothesis wf : wf_params p.
Hypothesis LX : lawful X (hash_len p).
Notation N := (pN p).
Notation K := (pK p).
Notation w := (pN p - pK p)%nat.
Notation L := (num_leaves p).
Notation nn := (num_nodes p).
Notation slen := (seed_len p).

(** *** Key generation *)
Lemma keygen_generates fuel junk rng sk0 pk0 sk pk rng' : length sk0 = sizeof_sk p -> length pk0 = sizeof_pk p -> bytes pk0 ->
  LESS_keygen X p fuel junk rng sk0 pk0 = Ok (sk, pk, rng') -> generates X p rng sk pk rng'.
Proof.
  intros H1 H2 H3 E. pose proof (keygen_sk X p fuel junk rng sk0 pk0 sk pk rng' LX H1 E) as KS.
  pose proof (LESS_keygen_spec X p wf LX fuel junk rng sk0 pk0 H1 H2 H3) as S. rewrite E in S. cbn [wp] in S.
  destruct S as [(csk & g0 & c & G & A1 & A2 & A3 & A4 & A5 & A6 & A7 & A8 & A9)].
  pose proof (law_sq_len _ _ LX (prikey_seed_len p) rng) as L1.
  unfold generates. destruct (x_squeeze X (prikey_seed_len p) rng) as [csk' r1]. cbn [fst] in L1.
  destruct (x_squeeze X slen r1) as [g0' r2] eqn:E2. destruct KS as [K1 ->].
  assert (csk' = csk /\ g0' = g0) as [-> ->]. { rewrite A1 in K1. apply app_split in K1; [|congruence]. destruct K1; auto. }
  exists csk, g0, r1, (ent G). split; auto. split; auto. split; auto. split; auto. split; [exact A8|].
  split. { apply (sampledG_generator_of X p wf LX fuel g0 c). exact A4. }
  intros x Hx. apply (key_component_spec X p wf LX fuel csk G pk x Hx). apply A9. auto.
Qed.

Lemma generates_det rng sk pk r sk' pk' r' : generates X p rng sk pk r -> generates X p rng sk' pk' r' -> sk = sk' /\ pk = pk' /\ r = r'.
Proof.
  intros (csk & g0 & r1 & G & A1 & A2 & A3 & A4 & A5 & A6 & A7) (csk' & g0' & r1' & G' & B1 & B2 & B3 & B4 & B5 & B6 & B7).
  rewrite A1 in B1. injection B1 as <- <-. rewrite A2 in B2. injection B2 as <- <-. split; [congruence|]. split; auto.
  pose proof (generator_of_det X p _ _ _ A6 B6) as EG.
  apply (list_ext 0); [congruence|]. intros i Hi. rewrite A4 in Hi.
  destruct (Nat.lt_ge_cases i slen) as [I1|I1].
  { apply (chunk_nth _ _ 0 slen); [|lia]. unfold bytes_at in *. congruence. }
  assert (RB : (0 < rref_bytes p)%nat) by (unfold sizeof_pk in Hi; destruct (rref_bytes p); lia).
  set (x := ((i - slen) / rref_bytes p)%nat).
  assert (U1 : (x * rref_bytes p <= i - slen < x * rref_bytes p + rref_bytes p)%nat).
  { pose proof (Nat.div_mod (i - slen) (rref_bytes p) ltac:(lia)) as DM.
    pose proof (Nat.mod_upper_bound (i - slen) (rref_bytes p) ltac:(lia)). fold x in DM. lia. }
  assert (U2 : (x < p_nk p - 1)%nat). { apply Nat.div_lt_upper_bound; [lia|]. unfold sizeof_pk in Hi. lia. }
  apply (chunk_nth _ _ (off_sf p x) (rref_bytes p)). 2:{ unfold off_sf. lia. }
  apply (key_component_det X p wf LX csk G G' x); auto; [exact (A7 x U2)|exact (B7 x U2)].
Qed.

Lemma generates_keygen rng sk pk rng' : generates X p rng sk pk rng' ->
  exists f, forall fuel junk sk0 pk0, (f <= fuel)%nat -> length sk0 = sizeof_sk p -> length pk0 = sizeof_pk p -> bytes pk0 ->
    LESS_keygen X p fuel junk rng sk0 pk0 = Ok (sk, pk, rng').
Proof.
  intros GN. pose proof GN as (csk & g0 & r1 & G & A1 & A2 & A3 & A4 & A5 & A6 & A7).
  destruct (generator_of_sampledG X p wf LX _ _ A6) as (f0 & c & M & SG & _).
  destruct (fuel_choice (p_nk p - 1) (fun x f => exists Q, sampled X p f (private_seed X p csk x) Q)) as (f1 & H1).
  { intros t f f' Hf (Q & S). exists Q. eapply sampled_up; eauto. }
  { intros x Hx. destruct (A7 x Hx) as (pm & cf & _ & _ & _ & MO & _). destruct (monomial_of_sampled X p wf LX _ _ _ MO) as (f & Q & S & _).
    exists f, Q. exact S. }
  exists (max f0 f1). intros fuel junk sk0 pk0 Hf L1 L2 B2.
  assert (ST : gp False (LESS_keygen X p fuel junk rng sk0 pk0) (fun '(sk', pk', _) => honest_key X p fuel sk' pk')).
  { apply LESS_keygen_gp; auto. rewrite A1, A2. cbn [fst]. split.
    - intros r Hr C. rewrite (proj1 SG fuel r ltac:(lia) Hr) in C. discriminate.
    - intros x r Hx Hr C. destruct (H1 x Hx) as (Q & (_ & SQ)).
      rewrite private_seeds_nth in C by auto. unfold private_seed in SQ. rewrite (SQ fuel r ltac:(lia) Hr) in C. discriminate. }
  destruct (LESS_keygen X p fuel junk rng sk0 pk0) as [[[sk' pk'] r']| |] eqn:E; cbn [gp] in ST; try contradiction.
  apply keygen_generates in E; auto. destruct (generates_det _ _ _ _ _ _ _ GN E) as (<- & <- & <-). auto.
Qed.

(** *** Signing *)
Definition round0 : list Z * list Z * (nat -> nat) * list (list Z) := ([], [], fun _ => 0%nat, []).

Lemma challenge_of_ok digest c : challenge_of X p digest c -> challenge_ok p c.
Proof.
  intros HC. destruct (challenge_of_expand X p wf digest c HC) as (f & Hf).
  pose proof (expand_digest_spec X p wf f digest) as W. rewrite Hf in W by lia. exact W.
Qed.

Lemma sign_signs fuel junk rng sk m old sig num rng' : length sk = sizeof_sk p -> length old = sizeof_sign p -> bytes old -> bytes m ->
  LESS_sign X p fuel junk rng sk m old = Ok (sig, num, rng') -> signs X p rng sk m old sig num rng'.
Proof.
  intros H1 H2 H3 Hm E.
  assert (T : sign_stuck X p True fuel junk rng sk m).
  { unfold sign_stuck. destruct (x_squeeze X slen rng). destruct (x_squeeze X (hash_len p) x). cbv zeta. auto 10. }
  pose proof (LESS_sign_drawn X p wf LX True fuel junk rng sk m old T H1 H2 H3) as S. rewrite E in S. cbn [gp] in S. clear E T.
  destruct S as (tree & c & G & acts & Vs & chal & fl & HS & HD & HK).
  destruct HS as [A1 A2 A3 A4 A5 A6 A7 A8 A9 A10 A11 A12 A13 A14 A15 A16 A17 AZ A18].
  unfold drawn in HD. destruct (squeeze_ok X p LX slen rng) as [EL EB].
  destruct (x_squeeze X slen rng) as [root r1] eqn:E1. cbn [fst] in EL, EB. destruct (squeeze_ok X p LX (hash_len p) r1) as [SL SB].
  destruct (x_squeeze X (hash_len p) r1) as [salt r2] eqn:E2. cbn [fst] in SL, SB. destruct HD as (D1 & -> & D3).
  assert (TR : nth 0 tree [] = root).
  { destruct (generate_seed_tree_spec X p (repeat 0 (pT p)) (repeat_length _ _) (repeat (repeat 0 slen) nn) root salt LX (zero_mat_shape _ _) EL EB) as (t' & E' & _ & _ & R & _).
    - apply Forall_forall. intros x Hx. apply repeat_spec in Hx. subst. apply zero_bytes.
    - rewrite D3 in E'. injection E' as <-. exact R. }
  rewrite D1 in *.
  destruct (list_choice round0 (pT p) (fun t r => let '(pm, cf, pv, V) := r in V = nth t Vs [] /\
     commitment_of X p salt root (ent G) t pm cf pv V /\
     forall k, (k < K)%nat -> (pf (a_perm (nth t acts act0)) k < N)%nat /\ nth (pf (a_perm (nth t acts act0)) k) pm 0 = Z.of_nat (pv k) /\
      nth k (a_coef (nth t acts act0)) 0 = nth (pf (a_perm (nth t acts act0)) k) cf 0)) as (rounds & RL & RP).
  { intros t Ht. destruct (commit_round_spec X p wf LX fuel tree salt root G t _ _ A5 TR Ht (A8 t Ht)) as (pm & cf & pv & C1 & C2 & C3 & C4).
    exists (pm, cf, pv, nth t Vs []). auto. }
  assert (EV : map snd rounds = Vs).
  { apply (list_ext []). { rewrite map_length, RL. symmetry. exact A7. } intros t Ht. rewrite map_length in Ht. specialize (RP t ltac:(lia)).
    change (@nil (list Z)) with (snd round0) at 1. rewrite map_nth. destruct (nth t rounds round0) as [[[pm cf] pv] V]. apply RP. }
  assert (EC : concat (map (fun r => concat (snd r)) rounds) = concat (map (@concat Z) Vs)).
  { rewrite <- EV, map_map. auto. }
  assert (ED : hash X (concat (map (fun r => concat (snd r)) rounds) ++ m ++ salt) = sig_digest p sig).
  { rewrite A9, EC. symmetry. apply (hash_transcript X p LX); auto. apply (Forall_nth_mat _ Vs (pT p)); auto.
    intros t Ht. specialize (RP t Ht). destruct (nth t rounds round0) as [[[pm cf] pv] V]. destruct RP as (-> & (s & M & R & _ & _ & _ & _ & _ & NF) & _).
    eapply normal_form_vmem; eauto. }
  pose proof (published_enum p wf chal fl A10 A12) as PB.
  exists root, salt, r1, (ent G), rounds, chal, (enum (pub fl) nn), (map (fun i => nth i tree []) (enum (pub fl) nn)).
  split; auto. split; auto. split. { apply (sampledG_generator_of X p wf LX fuel _ c). exact A6. }
  split; auto. split.
  { intros t Ht pm cf pv V EN. specialize (RP t Ht). unfold round0 in RP. rewrite EN in RP. apply RP. }
  rewrite ED. split. { apply (expand_challenge_of X p wf fuel). apply A11. lia. }
  split; auto. split. { exact D1. } split.
  { intros t Ht Hn pm cf pv V EN. specialize (RP t Ht). unfold round0 in RP. rewrite EN in RP. destruct RP as (_ & _ & RP).
    assert (NZ : nz chal t = true). { unfold nz. destruct (Z.eqb_spec (nth t chal 0) 0); [contradiction|auto]. }
    destruct (A18 t Ht NZ) as (Q & b & R1 & R2 & R3 & _ & R5). exists (m_perm Q), (m_coef Q). split.
    - unfold private_seed, bytes_at. rewrite skipn_O.
      rewrite <- (private_seeds_nth X p (p_nk p - 1)) by (apply (key_index p chal A10 t Ht NZ)).
      apply (sampled_monomial_of X p wf LX fuel _ Q). exact R1.
    - fold (responses_before chal t). rewrite responses_cnt by (destruct A10; lia).
      apply (response_spec p wf (nth t acts act0) Q b); auto. apply R1. }
  split; [reflexivity|]. split; [exact PB|]. split.
  { pose proof (tree_seed_nth X p salt tree root A5 TR) as TS. clear -TS.
    assert (G : forall l, (forall i, In i l -> (i < nn)%nat) -> Forall2 (tree_seed X p salt 0 root) l (map (fun i => nth i tree []) l)).
    { induction l as [|i l IH]; intros H; cbn; constructor. { apply TS. apply H. left; auto. } apply IH. intros; apply H; right; auto. }
    apply G. intros i Hi. apply in_enum in Hi. apply Hi. }
  split; auto.
Qed.

Lemma Forall2_det {A B} (R : A -> B -> Prop) l a b : (forall x y z, R x y -> R x z -> y = z) -> Forall2 R l a -> Forall2 R l b -> a = b.
Proof. intros H F. revert b. induction F; intros b' F'; inversion F'; subst; auto. f_equal; eauto. Qed.

Lemma signs_det rng sk m old sig num r sig' num' r' : signs X p rng sk m old sig num r -> signs X p rng sk m old sig' num' r' ->
  sig = sig' /\ num = num' /\ r = r'.
Proof.
  intros (root & salt & r1 & G & rounds & chal & nodes & seeds & A1 & A2 & A3 & A4 & A5 & A6 & A7 & A8 & A9 & A10 & A11 & A12 & A13 & A14 & A15 & A16 & A17)
    (root' & salt' & r1' & G' & rounds' & chal' & nodes' & seeds' & B1 & B2 & B3 & B4 & B5 & B6 & B7 & B8 & B9 & B10 & B11 & B12 & B13 & B14 & B15 & B16 & B17).
  rewrite A1 in B1. injection B1 as <- <-. rewrite A2 in B2. injection B2 as <- <-.
  pose proof (generator_of_det X p _ _ _ A3 B3) as EG.
  assert (ER : forall t, (t < pT p)%nat -> forall pm cf pv V pm' cf' pv' V', nth t rounds round0 = (pm, cf, pv, V) -> nth t rounds' round0 = (pm', cf', pv', V') ->
    pm = pm' /\ cf = cf' /\ V = V' /\ forall k, (k < K)%nat -> pv k = pv' k).
  { intros t Ht pm cf pv V pm' cf' pv' V' E E'.
    apply (commitment_det X p wf LX salt root G G' t); auto. }
  assert (ES : map snd rounds = map snd rounds').
  { apply (list_ext []). { rewrite !map_length. lia. } intros t Ht. rewrite map_length in Ht.
    change (@nil (list Z)) with (snd round0). rewrite !map_nth.
    destruct (nth t rounds round0) as [[[pm cf] pv] V] eqn:E. destruct (nth t rounds' round0) as [[[pm' cf'] pv'] V'] eqn:E'.
    apply (ER t ltac:(lia) _ _ _ _ _ _ _ _ E E'). }
  assert (EC : map (fun r : list Z * list Z * (nat -> nat) * list (list Z) => concat (snd r)) rounds = map (fun r => concat (snd r)) rounds').
  { rewrite <- !(map_map snd (@concat Z)). rewrite ES. auto. }
  rewrite <- EC in B6, B10. pose proof (challenge_of_det X p _ _ _ A6 B6) as <-. pose proof (challenge_of_ok _ _ A6) as HC.
  pose proof (published_det p _ _ _ A11 B11) as <-.
  pose proof (Forall2_det _ _ _ _ (tree_seed_det X p salt 0 root) A12 B12) as <-.
  split; [|split; [congruence|auto]]. subst num num'.
  set (num := length nodes) in *.
  assert (OD : (off_digest p + hash_len p = off_seeds p)%nat) by (unfold off_seeds, off_digest; lia).
  assert (OE : (off_seeds p + Z.to_nat (p_maxbytes p) + 1 = sizeof_sign p)%nat) by (unfold sizeof_sign, seed_storage_len; lia).
  apply (list_ext 0); [congruence|]. intros i Hi. rewrite A7 in Hi.
  destruct (Nat.lt_ge_cases i (hash_len p)) as [I1|I1].
  { apply (chunk_nth sig sig' 0 (hash_len p)); [|lia]. unfold bytes_at in *. congruence. }
  destruct (Nat.lt_ge_cases i (off_digest p)) as [I2|I2].
  { assert (MB : (0 < mono_bytes p)%nat) by (unfold off_digest in I2; destruct (mono_bytes p); lia).
    set (u := ((i - hash_len p) / mono_bytes p)%nat).
    assert (U1 : (u * mono_bytes p <= i - hash_len p < u * mono_bytes p + mono_bytes p)%nat).
    { pose proof (Nat.div_mod (i - hash_len p) (mono_bytes p) ltac:(lia)) as DM.
      pose proof (Nat.mod_upper_bound (i - hash_len p) (mono_bytes p) ltac:(lia)). fold u in DM. lia. }
    assert (U2 : (u < pW p)%nat). { apply Nat.div_lt_upper_bound; [lia|]. unfold off_digest in I2. lia. }
    destruct (weight_index p chal u HC U2) as (t & T1 & T2 & T3).
    assert (T4 : nth t chal 0 <> 0). { unfold nz in T2. destruct (Z.eqb_spec (nth t chal 0) 0); [discriminate|auto]. }
    assert (T5 : weight (firstn t chal) = u). { fold (responses_before chal t). rewrite responses_cnt; auto. destruct HC. lia. }
    destruct (nth t rounds round0) as [[[pm cf] pv] V] eqn:E. destruct (nth t rounds' round0) as [[[pm' cf'] pv'] V'] eqn:E'.
    destruct (ER t T1 _ _ _ _ _ _ _ _ E E') as (<- & <- & _ & EP).
    destruct (A9 t T1 T4 _ _ _ _ E) as (pb & cb & C1 & C2). destruct (B9 t T1 T4 _ _ _ _ E') as (pb' & cb' & D1 & D2).
    destruct (monomial_of_det X p _ _ _ _ _ C1 D1) as [<- <-]. rewrite T5 in C2, D2.
    apply (chunk_nth sig sig' (off_monom p u) (mono_bytes p)); [|unfold off_monom; lia].
    apply (response_det p pm cf pv pv' pb cb); auto.
    - destruct (A5 t T1 _ _ _ _ E) as (s & M & R & _ & MO & _). apply (mo_perm p _ (monomial_of_ok X p wf LX _ _ _ MO)).
    - apply (mo_perm p _ (monomial_of_ok X p wf LX _ _ _ C1)). }
  destruct (Nat.lt_ge_cases i (off_seeds p)) as [I3|I3].
  { apply (chunk_nth sig sig' (off_digest p) (hash_len p)); [unfold bytes_at in *; congruence|]. lia. }
  destruct (Nat.lt_ge_cases i (off_seeds p + num * slen)) as [I4|I4].
  { apply (chunk_nth sig sig' (off_seeds p) (num * slen)); [unfold bytes_at in *; congruence|lia]. }
  destruct (Nat.eq_dec i (off_seeds p + num * slen)) as [->|I5]; [congruence|].
  destruct (Nat.lt_ge_cases i (off_seeds p + Z.to_nat (p_maxbytes p))) as [I6|I6].
  { replace i with (off_seeds p + (i - off_seeds p))%nat by lia. rewrite A16, B16 by lia. auto. }
  assert (i = off_seeds p + Z.to_nat (p_maxbytes p))%nat as -> by lia. rewrite A17, B17 by lia. auto.
Qed.

Lemma signs_sign rng sk m old sig num rng' : length sk = sizeof_sk p -> length old = sizeof_sign p -> bytes old -> bytes m ->
  signs X p rng sk m old sig num rng' ->
  exists f, forall fuel junk, (f <= fuel)%nat -> LESS_sign X p fuel junk rng sk m old = Ok (sig, num, rng').
Proof.
  intros H1 H2 H3 Hm SG.
  pose proof SG as (root & salt & r1 & G & rounds & chal & nodes & seeds & A1 & A2 & A3 & A4 & A5 & A6 & A7 & A8 & A9 & _).
  destruct (generator_of_sampledG X p wf LX _ _ A3) as (f0 & c & M & SGG & EM).
  destruct (fuel_choice (pT p) (fun t f => exists s Q, tree_seed X p salt 0 root (leaf p t) s /\ sampled X p f (s ++ salt ++ le_bytes 2 (Z.of_nat t)) Q)) as (f1 & F1).
  { intros t f f' Hf (s & Q & TS & S). exists s, Q. split; auto. eapply sampled_up; eauto. }
  { intros t Ht. destruct (nth t rounds round0) as [[[pm cf] pv] V] eqn:E. destruct (A5 t Ht _ _ _ _ E) as (s & M' & R & TS & MO & _).
    destruct (monomial_of_sampled X p wf LX _ _ _ MO) as (f & Q & S & _). exists f, s, Q. auto. }
  destruct (challenge_of_expand X p wf _ _ A6) as (f2 & F2).
  destruct (fuel_choice (pT p) (fun t f => nth t chal 0 <> 0 -> exists Q, sampled X p f (private_seed X p (bytes_at sk 0 (prikey_seed_len p)) (Z.to_nat (nth t chal 0 - 1))) Q)) as (f3 & F3).
  { intros t f f' Hf S Hn. destruct (S Hn) as (Q & S'). exists Q. eapply sampled_up; eauto. }
  { intros t Ht. destruct (Z.eq_dec (nth t chal 0) 0) as [Z0|Z0]. { exists 0%nat. intros C. contradiction. }
    destruct (nth t rounds round0) as [[[pm cf] pv] V] eqn:E. destruct (A9 t Ht Z0 _ _ _ _ E) as (pb & cb & MO & _).
    destruct (monomial_of_sampled X p wf LX _ _ _ MO) as (f & Q & S & _). exists f. intros _. exists Q. auto. }
  exists (max (max f0 f1) (max f2 f3)). intros fuel junk Hf.
  destruct (squeeze_ok X p LX slen rng) as [EL EB]. destruct (squeeze_ok X p LX (hash_len p) r1) as [SL SB]. rewrite A1 in EL, EB. rewrite A2 in SL, SB. cbn [fst] in *.
  assert (ST : sign_stuck X p False fuel junk rng sk m).
  { unfold sign_stuck. rewrite A1, A2.
    assert (TF : forall tree, generate_seed_tree_from_root X p (repeat (repeat 0 slen) nn) root salt = Ok tree ->
      tree_mem p tree /\ nth 0 tree [] = root /\ tree_gen X p salt tree).
    { intros tree ET. destruct (generate_seed_tree_spec X p (repeat 0 (pT p)) (repeat_length _ _) (repeat (repeat 0 slen) nn) root salt LX (zero_mat_shape _ _) EL EB) as (t' & E' & TM & _ & R & TG).
      - apply Forall_forall. intros x Hx. apply repeat_spec in Hx. subst. apply zero_bytes.
      - rewrite ET in E'. injection E' as <-. auto. }
    split; [|split].
    - intros r Hr C. unfold bytes_at in SGG. unfold sk_g0 in C. rewrite (proj1 SGG fuel r ltac:(lia) Hr) in C. discriminate.
    - intros tree t r ET Ht Hr C. destruct (TF tree ET) as (TM & TR & TG). destruct (F1 t Ht) as (s & Q & TS & (_ & S)).
      pose proof (T_lt_L p wf). pose proof (nn_L p).
      assert (TS' : tree_seed X p salt 0 root (leaf p t) (nth (leaf p t) tree [])) by (apply tree_seed_nth; auto; unfold leaf; lia).
      pose proof (tree_seed_det X p _ _ _ _ _ _ TS TS') as ->. rewrite (round_bytes_le p wf) in C by auto.
      unfold leaf in S. rewrite (S fuel r ltac:(lia) Hr) in C. discriminate.
    - intros tree c' M' h acts ET SG' SC. destruct (TF tree ET) as (TM & TR & TG). cbv zeta.
      assert (SP := sign_commit_spec X p wf LX True fuel junk tree salt M' ltac:(auto) TM ltac:(apply SG')).
      rewrite SC in SP. cbn [gp] in SP. destruct SP as (LA & Vs' & LV & -> & HC).
      pose proof (sampledG_generator_of X p wf LX _ _ _ _ SG') as GO. pose proof (generator_of_det X p _ _ _ A3 GO) as EG.
      assert (EV : map snd rounds = Vs').
      { apply (list_ext []). { rewrite map_length, A4. symmetry. exact LV. } intros t Ht. rewrite map_length in Ht.
        change (@nil (list Z)) with (snd round0) at 1. rewrite map_nth.
        destruct (nth t rounds round0) as [[[pm cf] pv] V] eqn:E.
        destruct (commit_round_spec X p wf LX fuel tree salt root M' t _ _ TG TR ltac:(lia) (HC t ltac:(lia))) as (pm' & cf' & pv' & C1 & _).
        apply (commitment_det X p wf LX salt root G (ent M') t pm cf pv V pm' cf' pv' _ EG); auto. apply A5; auto. lia. }
      assert (VM : Forall (vmem p) Vs').
      { apply (Forall_nth_mat _ Vs' (pT p)); auto. intros t Ht.
        destruct (commit_round_spec X p wf LX fuel tree salt root M' t _ _ TG TR Ht (HC t Ht)) as (pm' & cf' & pv' & (s & MM & R & _ & _ & _ & _ & _ & NF) & _).
        eapply normal_form_vmem; eauto. }
      rewrite (hash_transcript X p LX) by auto.
      assert (ED : digest_of X (concat (map (@concat Z) Vs') ++ m ++ salt) = hash X (concat (map (fun r => concat (snd r)) rounds) ++ m ++ salt)).
      { rewrite <- EV, map_map. reflexivity. }
      rewrite ED. split. { rewrite F2 by lia. discriminate. }
      intros fws t r EF Ht Hn Hr C. rewrite F2 in EF by lia. injection EF as <-.
      assert (T4 : nth t chal 0 <> 0). { unfold nz in Hn. destruct (Z.eqb_spec (nth t chal 0) 0); [discriminate|auto]. }
      destruct (F3 t Ht T4) as (Q & (_ & S)). unfold sk_seeds in C.
      rewrite private_seeds_nth in C by (apply (key_index p chal (challenge_of_ok _ _ A6) t Ht Hn)).
      unfold private_seed, bytes_at in S. rewrite skipn_O in S. rewrite (S fuel r ltac:(lia) Hr) in C. discriminate. }
  pose proof (LESS_sign_drawn X p wf LX False fuel junk rng sk m old ST H1 H2 H3) as R.
  destruct (LESS_sign X p fuel junk rng sk m old) as [[[sig' num'] rng'']| |] eqn:E; cbn [gp] in R; try contradiction.
  apply sign_signs in E; auto. destruct (signs_det _ _ _ _ _ _ _ _ _ _ SG E) as (<- & <- & <-). auto.
Qed.
End B.
