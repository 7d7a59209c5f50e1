(** Property C64: the byte order of the host. On a big-endian host the library is the one on a little-endian host with other
    primitives, so that it is correct there too; but the two do not understand each other. *)
From Verif Require Import Base BaseLemmas Params ParamsProofs Fq Prim Samplers Monomial Codes Utils SeedTree Less Endian Spec SampleSpec LessSpec LayoutProofs Agree
  RoundProofs VerifyProofs SignerProofs SpecSampling PropSpec PropScheme PropBytes Toy.

(** What a big-endian host makes of the bytes it asks for: integers of two, four and eight bytes are stored in the other order. *)
Definition flip4 (n : nat) (bs : list Z) : list Z := concat (map (fun i => rev (firstn 4 (skipn (4 * i) bs))) (seq 0 n)).
Definition host_bytes (p : params) (n : nat) (bs : list Z) : list Z :=
  if (n =? 2)%nat || (n =? 8)%nat then rev bs else if (n =? 4 * pN p)%nat then flip4 (pN p) bs else bs.
(** What it makes of the strings it expands: the round number is stored in the other order. *)
Definition host_input (p : params) (s : list Z) : list Z :=
  if (length s =? seed_len p + hash_len p + 2)%nat then firstn (seed_len p + hash_len p) s ++ rev (skipn (seed_len p + hash_len p) s) else s.
Definition big_prim (X : prim) (p : params) : prim := {|
  xstate := xstate X;
  x_init := fun s => x_init X (host_input p s);
  x_squeeze := fun n st => let (bs, st') := x_squeeze X n st in (host_bytes p n bs, st');
  hstate := hstate X; h_init := h_init X; h_absorb := h_absorb X; h_final := h_final X |}.

Lemma flip4_cell n bs : length bs = (4 * n)%nat -> shape n 4 (map (fun i => rev (firstn 4 (skipn (4 * i) bs))) (seq 0 n)).
Proof.
  intros H. split; [rewrite map_length, seq_length; reflexivity|]. apply Forall_forall. intros x Hx. apply in_map_iff in Hx. destruct Hx as (i & <- & Hi). apply in_seq in Hi.
  rewrite rev_length, firstn_length, skipn_length. lia.
Qed.
Lemma flip4_length n bs : length bs = (4 * n)%nat -> length (flip4 n bs) = (4 * n)%nat.
Proof.
  intros H. unfold flip4. rewrite (concat_length 4 _ (proj2 (flip4_cell n bs H))). rewrite map_length, seq_length. lia.
Qed.

Section A.
Variable X : prim.
Variable p : params.
Hypothesis wf : wf_params p.
Hypothesis LX : lawful X (hash_len p).
Notation B := (big_prim X p).

Lemma big_lawful : lawful B (hash_len p).
Proof.
  constructor.
  - intros n s. cbn. pose proof (law_sq_len X _ LX n s) as L. destruct (x_squeeze X n s) as [bs st]. cbn [fst] in *. unfold host_bytes.
    destruct (_ || _); [rewrite rev_length; auto|]. destruct (Nat.eqb_spec n (4 * pN p)) as [->|]; auto. apply flip4_length. auto.
  - intros n s. cbn. pose proof (law_sq_bytes X _ LX n s) as L. destruct (x_squeeze X n s) as [bs st]. cbn [fst] in *. unfold host_bytes.
    destruct (_ || _); [apply Forall_rev; auto|]. destruct (n =? 4 * pN p)%nat; auto. unfold flip4. apply Forall_concat. apply Forall_forall.
    intros x Hx. apply in_map_iff in Hx. destruct Hx as (i & <- & _). apply Forall_rev, Forall_firstn, Forall_skipn. auto.
  - apply (law_h_len X _ LX).
  - apply (law_h_bytes X _ LX).
  - apply (law_absorb X _ LX).
Qed.

Lemma host_other n bs : n <> 2%nat -> n <> 8%nat -> n <> (4 * pN p)%nat -> host_bytes p n bs = bs.
Proof.
  intros H1 H2 H3. unfold host_bytes. destruct (Nat.eqb_spec n 2), (Nat.eqb_spec n 8), (Nat.eqb_spec n (4 * pN p)); cbn [orb]; congruence.
Qed.
Lemma squeeze_other n st : n <> 2%nat -> n <> 8%nat -> n <> (4 * pN p)%nat -> x_squeeze B n st = x_squeeze X n st.
Proof. intros H1 H2 H3. cbn. destruct (x_squeeze X n st). rewrite host_other by auto. reflexivity. Qed.
Lemma N_large : (128 <= pN p)%nat.
Proof. pose proof (wf_cat p wf) as C. destruct (p_cat p); lia. Qed.
Lemma squeeze_seed st : x_squeeze B (seed_len p) st = x_squeeze X (seed_len p) st.
Proof. pose proof N_large. apply squeeze_other; unfold seed_len; destruct (p_cat p); lia. Qed.
Lemma squeeze_double st : x_squeeze B (2 * seed_len p) st = x_squeeze X (2 * seed_len p) st.
Proof. pose proof N_large. apply squeeze_other; unfold seed_len; destruct (p_cat p); lia. Qed.
Lemma init_other s : length s <> (seed_len p + hash_len p + 2)%nat -> x_init B s = x_init X s.
Proof. intros H. cbn. unfold host_input. destruct (Nat.eqb_spec (length s) (seed_len p + hash_len p + 2)); congruence. Qed.
Lemma seed_pos : (16 <= seed_len p <= 32)%nat.
Proof. unfold seed_len. destruct (p_cat p); lia. Qed.

Lemma rand_loop_eq minv span req num fuel : forall st count buf,
  rand_loop_big X fuel minv span req num st count buf = rand_loop B fuel minv span req num st count buf.
Proof.
  induction fuel as [|f IH]; intros st count buf; cbn [rand_loop rand_loop_big]; auto. cbn [x_squeeze big_prim]. destruct (x_squeeze X 8 st) as [bs st'].
  change (host_bytes p 8 bs) with (rev bs). change (le_val (rev bs)) with (be_val bs).
  destruct (rand_chunks (Z.to_nat (64 / req)) minv span req num (be_val bs) count buf) as [[fin [c b]]| |]; cbn [bind]; auto. destruct fin; auto.
Qed.
Lemma words32_eq n bs : length bs = (4 * n)%nat -> words32 n (flip4 n bs) = words32_big n bs.
Proof.
  intros H. unfold words32, words32_big. apply map_ext_in. intros i Hi. apply in_seq in Hi. assert (Hi2 : (i < n)%nat) by lia. unfold be_val. f_equal.
  pose proof (flip4_cell n bs H) as SH.
  assert (R : rd (flip4 n bs) (i * 4) 4 = Ok (nth i (map (fun i => rev (firstn 4 (skipn (4 * i) bs))) (seq 0 n)) [])) by (apply (rd_cell n 4); auto; lia).
  rewrite rd_ok in R by (rewrite flip4_length by auto; lia). rewrite nth_map_seq in R by lia. rewrite (Nat.mul_comm i 4) in R. exact (f_equal (fun r => match r with Ok x => x | _ => [] end) R).
Qed.
Lemma shuffle_eq st perm : yt_shuffle_state_big X p st perm = yt_shuffle_state B p st perm.
Proof.
  unfold yt_shuffle_state_big, yt_shuffle_state. cbn [x_squeeze big_prim]. pose proof (law_sq_len X _ LX (4 * pN p) st) as L.
  destruct (x_squeeze X (4 * pN p) st) as [bs st']. cbn [fst] in L. unfold host_bytes. pose proof N_large.
  destruct (Nat.eqb_spec (4 * pN p) 2); [lia|]. destruct (Nat.eqb_spec (4 * pN p) 8); [lia|]. rewrite Nat.eqb_refl. cbn [orb]. rewrite words32_eq by auto. reflexivity.
Qed.
Lemma expand_eq fuel r s : monomial_expand_big X p fuel r (host_input p s) = monomial_expand B p fuel r s.
Proof.
  unfold monomial_expand_big, monomial_expand, def_rand_big, fq_star_rnd_state_elements, def_rand. cbv zeta. rewrite rand_loop_eq. apply agree_eq.
  apply agree_bind_eq. intros [coefs st1] _. apply agree_bind_eq. intros perm _. rewrite shuffle_eq. apply agree_refl.
Qed.
Lemma salt_rnd_eq fuel r sd salt i : length sd = seed_len p -> length salt = hash_len p ->
  monomial_mat_seed_expand_salt_rnd_big X p fuel r sd salt i = monomial_mat_seed_expand_salt_rnd B p fuel r sd salt i.
Proof.
  intros H1 H2. unfold monomial_mat_seed_expand_salt_rnd_big, monomial_mat_seed_expand_salt_rnd. rewrite <- expand_eq. f_equal. unfold host_input.
  assert (length (sd ++ salt ++ round_bytes i) = seed_len p + hash_len p + 2)%nat as ->. { rewrite !app_length, H1, H2. unfold round_bytes. cbn [length le_bytes]. lia. }
  rewrite Nat.eqb_refl. rewrite !app_assoc. assert (length (sd ++ salt) = seed_len p + hash_len p)%nat as HL by (rewrite app_length; lia).
  rewrite <- HL. generalize (sd ++ salt). intros l. rewrite firstn_app, firstn_all, Nat.sub_diag, skipn_app, skipn_all, Nat.sub_diag. cbn [firstn skipn app]. rewrite app_nil_r. reflexivity.
Qed.
Lemma host_input_other s : length s <> (seed_len p + hash_len p + 2)%nat -> host_input p s = s.
Proof. intros H. unfold host_input. destruct (Nat.eqb_spec (length s) (seed_len p + hash_len p + 2)); congruence. Qed.
Lemma prikey_eq fuel r sd : length sd = prikey_seed_len p -> monomial_mat_seed_expand_prikey_big X p fuel r sd = monomial_mat_seed_expand_prikey B p fuel r sd.
Proof.
  intros H. unfold monomial_mat_seed_expand_prikey_big, monomial_mat_seed_expand_prikey. rewrite <- expand_eq, host_input_other; auto.
  rewrite H. pose proof seed_pos. unfold prikey_seed_len, hash_len. lia.
Qed.
Lemma SF_eq fuel r sd : length sd = seed_len p -> generator_SF_seed_expand_big X p fuel r sd = generator_SF_seed_expand B p fuel r sd.
Proof.
  intros H. unfold generator_SF_seed_expand_big, generator_SF_seed_expand. cbv zeta. rewrite init_other by (rewrite H; lia). f_equal. apply agree_eq.
  change (pK p) with (0 + pK p)%nat. apply (agree_for (fun _ => eq)); [reflexivity|]. intros i [v st] b _ <-. apply agree_bind_eq. intros row _.
  unfold rand_range_q_state_elements, def_rand, def_rand_big. rewrite rand_loop_eq. apply agree_refl.
Qed.
Lemma draw_eq fws fuel : forall st, draw_position_big X p fuel fws st = draw_position B p fuel fws st.
Proof.
  induction fuel as [|f IH]; intros st; cbn [draw_position draw_position_big]; auto. cbn [x_squeeze big_prim]. destruct (x_squeeze X 2 st) as [bs st'].
  change (host_bytes p 2 bs) with (rev bs). change (le_val (rev bs)) with (be_val bs). cbv zeta. destruct (_ || _); [apply IH|].
  apply agree_eq. apply agree_bind_eq. intros x _. destruct (negb (x =? 0)); [rewrite IH|]; apply agree_refl.
Qed.
Lemma place_eq dfuel fuel : forall placed fws st, place_elements_big X p fuel dfuel placed fws st = place_elements B p fuel dfuel placed fws st.
Proof.
  induction fuel as [|f IH]; intros placed fws st; cbn [place_elements place_elements_big]; auto. destruct (placed <? pW p)%nat; auto.
  rewrite draw_eq. apply agree_eq. apply agree_bind_eq. intros [[v ps] st'] _. apply agree_bind_eq. intros fws' _. rewrite IH. apply agree_refl.
Qed.
Lemma digest_eq fuel fws d : length d = hash_len p -> expand_digest_to_fixed_weight_big X p fuel fws d = expand_digest_to_fixed_weight B p fuel fws d.
Proof.
  intros H. unfold expand_digest_to_fixed_weight_big, expand_digest_to_fixed_weight. rewrite place_eq, init_other; auto. rewrite H. pose proof seed_pos. unfold hash_len. lia.
Qed.
Lemma private_eq n : forall st, private_seeds X p n st = private_seeds B p n st.
Proof. induction n as [|n IH]; intros st; cbn [private_seeds]; auto. unfold prikey_seed_len. rewrite squeeze_double. destruct (x_squeeze X (2 * seed_len p) st). rewrite IH. reflexivity. Qed.
Lemma private_init csk : length csk = prikey_seed_len p -> x_init B csk = x_init X csk.
Proof. intros H. apply init_other. rewrite H. pose proof seed_pos. unfold prikey_seed_len, hash_len. lia. Qed.
Lemma private_get n st i sd : get (private_seeds X p n st) i = Ok sd -> length sd = prikey_seed_len p.
Proof.
  revert st i. induction n as [|n IH]; intros st i; cbn [private_seeds].
  - destruct i; discriminate.
  - pose proof (law_sq_len X _ LX (prikey_seed_len p) st) as L. destruct (x_squeeze X (prikey_seed_len p) st) as [s st']. cbn [fst] in L.
    destruct i as [|i]; cbn; [intros E; injection E as <-; auto|]. apply IH.
Qed.

Lemma children_eq tree salt i : shape (num_nodes p) (seed_len p) tree -> length salt = hash_len p ->
  agree (fun a b => a = b /\ shape (num_nodes p) (seed_len p) a) (expand_children X p tree salt i) (expand_children B p tree salt i).
Proof.
  intros HS HL. unfold expand_children. apply agree_bind_eq. intros s Es. assert (LS : length s = seed_len p).
  { unfold get in Es. destruct (nth_error tree i) eqn:E; [|discriminate]. injection Es as <-. apply nth_error_In in E. destruct HS as (_ & HF). rewrite Forall_forall in HF. auto. }
  rewrite init_other by (rewrite app_length; lia). rewrite squeeze_double. pose proof (law_sq_len X _ LX (2 * seed_len p) (x_init X (salt ++ s))) as LQ.
  destruct (x_squeeze X (2 * seed_len p) (x_init X (salt ++ s))) as [bs st]. cbn [fst] in LQ.
  apply agree_bind_eq. intros t1 E1.
  assert (H1 : shape (num_nodes p) (seed_len p) t1). { apply set_inv in E1. destruct E1 as (_ & ->). apply shape_upd; auto. rewrite firstn_length. lia. }
  destruct (set t1 (2 * i + 2) (skipn (seed_len p) bs)) eqn:E2; cbn; auto. split; auto.
  apply set_inv in E2. destruct E2 as (_ & ->). apply shape_upd; auto. rewrite skipn_length. lia.
Qed.
Lemma generate_eq tree root salt : shape (num_nodes p) (seed_len p) tree -> length root = seed_len p -> length salt = hash_len p ->
  agree (fun a b => a = b /\ shape (num_nodes p) (seed_len p) a) (generate_seed_tree_from_root X p tree root salt) (generate_seed_tree_from_root B p tree root salt).
Proof.
  intros HS HR HL. unfold generate_seed_tree_from_root. apply agree_bind_eq. intros t0 E0. apply set_inv in E0. destruct E0 as (_ & ->).
  apply (agree_for (fun _ a b => a = b /\ shape (num_nodes p) (seed_len p) a)). { split; auto. apply shape_upd; auto. }
  intros i a b _ (<- & HA). apply children_eq; auto.
Qed.
Lemma rebuild_eq tree ind stored salt : shape (num_nodes p) (seed_len p) tree -> length salt = hash_len p ->
  agree (fun a b => a = b /\ shape (num_nodes p) (seed_len p) (snd a)) (rebuild_seed_tree_leaves X p tree ind stored salt) (rebuild_seed_tree_leaves B p tree ind stored salt).
Proof.
  intros HS HL. unfold rebuild_seed_tree_leaves. apply agree_bind_eq. intros flags _.
  apply (agree_for (fun _ a b => a = b /\ shape (num_nodes p) (seed_len p) (snd a))). { split; auto. }
  intros i [used t] b _ (<- & HA). cbn [snd] in HA. apply agree_bind_eq. intros f _. destruct (f =? 0); [|cbn; auto]. apply agree_bind_eq. intros pf _.
  apply (agree_bind (fun a b => a = b /\ shape (num_nodes p) (seed_len p) (snd a))).
  { destruct (pf =? 1); [|cbn; auto]. apply agree_bind_eq. intros sd Es. apply rd_length in Es. apply agree_bind_eq. intros t' Et. apply set_inv in Et. destruct Et as (_ & ->).
    cbn. split; auto. apply shape_upd; auto. }
  intros [u' t'] b (<- & HT). cbn [snd] in HT. destruct (i <? num_leaves p - 1)%nat; [|cbn; auto].
  eapply agree_bind. { apply children_eq; auto. } intros t'' b (<- & HT'). cbn. auto.
Qed.
Lemma get_shape n k (tree : list (list Z)) i sd : shape n k tree -> get tree i = Ok sd -> length sd = k.
Proof.
  intros (_ & HF) E. unfold get in E. destruct (nth_error tree i) eqn:EN; [|discriminate]. injection E as <-. apply nth_error_In in EN. rewrite Forall_forall in HF. auto.
Qed.

Variable fuel : nat.
Variable junk : nat -> nat -> Z.

Lemma keygen_eq rng sk pk : LESS_keygen_big X p fuel junk rng sk pk = LESS_keygen B p fuel junk rng sk pk.
Proof.
  unfold LESS_keygen_big, LESS_keygen. unfold prikey_seed_len at 1 2. rewrite squeeze_double. pose proof (law_sq_len X _ LX (2 * seed_len p) rng) as L1.
  destruct (x_squeeze X (2 * seed_len p) rng) as [csk rng1]. cbn [fst] in L1. apply agree_eq. apply agree_bind_eq. intros sk1 _. cbv zeta.
  rewrite squeeze_seed. pose proof (law_sq_len X _ LX (seed_len p) rng1) as L2. destruct (x_squeeze X (seed_len p) rng1) as [g0 rng2]. cbn [fst] in L2.
  rewrite private_init by auto. rewrite <- private_eq.
  apply agree_bind_eq. intros sk2 _. apply agree_bind_eq. intros pk1 _. rewrite SF_eq by auto. apply agree_bind_eq. intros G0 _. apply agree_bind_eq. intros fullG _.
  apply (agree_bind eq). 2: { intros a b <-. apply agree_refl. }
  apply (agree_for (fun _ => eq)); [reflexivity|]. intros i a b _ <-. apply agree_bind_eq. intros sd Es. rewrite prikey_eq by (eapply private_get; eauto). apply agree_refl.
Qed.

Lemma commit_eq tree salt fullG : shape (num_nodes p) (seed_len p) tree -> length salt = hash_len p ->
  sign_commit_big X p fuel junk tree salt fullG = sign_commit B p fuel junk tree salt fullG.
Proof.
  intros HS HL. unfold sign_commit_big, sign_commit. apply agree_eq. apply (agree_bind eq). 2: { intros a b <-. apply agree_refl. }
  apply (agree_for (fun _ => eq)); [reflexivity|]. intros i [[[h V] acts] Qt] b _ <-. apply agree_bind_eq. intros sd Es.
  rewrite salt_rnd_eq by (auto; eapply get_shape; eauto). apply agree_refl.
Qed.
Lemma respond_eq n st acts fws sig :
  sign_respond_big X p fuel junk (private_seeds X p n st) acts fws sig = sign_respond B p fuel junk (private_seeds X p n st) acts fws sig.
Proof.
  unfold sign_respond_big, sign_respond. apply agree_eq. apply (agree_bind eq). 2: { intros a b <-. apply agree_refl. }
  apply (agree_for (fun _ => eq)); [reflexivity|]. intros i [[sg em] act] b _ <-. apply agree_bind_eq. intros x _. destruct (x =? 0); [apply agree_refl|].
  apply agree_bind_eq. intros sd Es. rewrite prikey_eq by (eapply private_get; eauto). apply agree_refl.
Qed.

Lemma sign_eq rng sk m sig : LESS_sign_big X p fuel junk rng sk m sig = LESS_sign B p fuel junk rng sk m sig.
Proof.
  unfold LESS_sign_big, LESS_sign. apply agree_eq. apply agree_bind_eq. intros csk Ec. apply rd_length in Ec. cbv zeta.
  rewrite private_init by auto. rewrite <- private_eq. rewrite squeeze_seed. pose proof (law_sq_len X _ LX (seed_len p) rng) as L1.
  destruct (x_squeeze X (seed_len p) rng) as [ephem rng1]. cbn [fst] in L1. unfold hash_len at 1 2. rewrite squeeze_double.
  pose proof (law_sq_len X _ LX (2 * seed_len p) rng1) as L2. destruct (x_squeeze X (2 * seed_len p) rng1) as [salt rng2]. cbn [fst] in L2.
  apply agree_bind_eq. intros sig1 _. eapply agree_bind. { apply generate_eq; auto. apply zero_tree. }
  intros tree b (<- & HT). apply agree_bind_eq. intros g0 Eg. apply rd_length in Eg. rewrite SF_eq by auto. apply agree_bind_eq. intros G0 _. apply agree_bind_eq. intros fullG _.
  rewrite commit_eq by auto. apply agree_bind_eq. intros [h acts] _. apply agree_bind_eq. intros sig2 _.
  rewrite digest_eq by (apply (law_h_len X _ LX)). apply agree_bind_eq. intros fws _. apply agree_bind_eq. intros sig3 _. apply agree_bind_eq. intros stg _.
  apply agree_bind_eq. intros [num stg1] _. apply agree_bind_eq. intros sig4 _. rewrite respond_eq. apply agree_refl.
Qed.

Lemma loop_eq n : forall i pk sig salt tree G0 fws h V G act disc used, shape (num_nodes p) (seed_len p) tree -> length salt = hash_len p ->
  verify_loop_big X p fuel n i pk sig salt tree G0 fws h V G act disc used = verify_loop B p fuel n i pk sig salt tree G0 fws h V G act disc used.
Proof.
  induction n as [|n IH]; intros i pk sig salt tree G0 fws h V G act disc used HS HL; [reflexivity|]. cbn [verify_loop_big verify_loop].
  apply agree_eq. apply agree_bind_eq. intros x _. destruct (x =? 0).
  - apply agree_bind_eq. intros G1 _. apply agree_bind_eq. intros sd Es. rewrite salt_rnd_eq by (auto; eapply get_shape; eauto). apply agree_bind_eq. intros Q _.
    apply agree_bind_eq. intros [V' disc'] _. apply agree_eq. apply IH; auto.
  - apply agree_bind_eq. intros buf _. apply agree_bind_eq. intros G1 _. destruct (used <? pW p)%nat; [|exact I].
    apply agree_bind_eq. intros ab _. apply agree_bind_eq. intros act' _. apply agree_bind_eq. intros v _. destruct (v =? 0); [reflexivity|].
    apply agree_bind_eq. intros Gh _. apply agree_bind_eq. intros [[r Gr] piv] _. apply agree_bind_eq. intros V1 _. apply agree_bind_eq. intros V2 _.
    apply agree_eq. apply IH; auto.
Qed.
Lemma verify_eq pk m sig : LESS_verify_big X p fuel junk pk m sig = LESS_verify B p fuel junk pk m sig.
Proof.
  unfold LESS_verify_big, LESS_verify. apply agree_eq. apply agree_bind_eq. intros d Ed. apply rd_length in Ed. rewrite digest_eq by auto. apply agree_bind_eq. intros fws _.
  apply agree_bind_eq. intros salt Es. apply rd_length in Es. eapply agree_bind. { apply rebuild_eq; auto. apply zero_tree. }
  intros [u tree] b (<- & HT). cbn [snd] in HT. apply agree_bind_eq. intros g0 Eg. apply rd_length in Eg. rewrite SF_eq by auto. apply agree_bind_eq. intros G0 _.
  rewrite loop_eq by auto. apply agree_refl.
Qed.
End A.

(** *** C64 *)

(** On a big-endian host the three functions are those of a little-endian host over the primitives [big_prim], which are lawful
    if the given ones are. Hence every theorem of this development about lawful primitives holds there. *)
Theorem C64_same : forall X p, wf_params p -> lawful X (hash_len p) -> lawful (big_prim X p) (hash_len p) /\
  forall fuel junk,
  (forall rng sk pk, LESS_keygen_big X p fuel junk rng sk pk = LESS_keygen (big_prim X p) p fuel junk rng sk pk) /\
  (forall rng sk m sig, LESS_sign_big X p fuel junk rng sk m sig = LESS_sign (big_prim X p) p fuel junk rng sk m sig) /\
  (forall pk m sig, LESS_verify_big X p fuel junk pk m sig = LESS_verify (big_prim X p) p fuel junk pk m sig).
Proof.
  intros X p wf LX. split; [apply big_lawful; auto|]. intros fuel junk. split; [intros; apply keygen_eq; auto|]. split; [intros; apply sign_eq; auto|]. intros. apply verify_eq; auto.
Qed.

(** In particular a signature made on a big-endian host with a key made there is accepted there. *)
Theorem C64_correct : forall X p, wf_params p -> lawful X (hash_len p) ->
  forall fk junk0 rng0 sk0 pk0 sk pk rng1, length sk0 = sizeof_sk p -> length pk0 = sizeof_pk p -> bytes pk0 ->
    LESS_keygen_big X p fk junk0 rng0 sk0 pk0 = Ok (sk, pk, rng1) ->
  forall fs junk rng m sig0 sig num rng', length sig0 = sizeof_sign p -> bytes sig0 ->
    LESS_sign_big X p fs junk rng sk m sig0 = Ok (sig, num, rng') ->
  forall fv junk', (fs <= fv)%nat -> LESS_verify_big X p fv junk' pk m sig = Ok 1.
Proof.
  intros X p wf LX fk junk0 rng0 sk0 pk0 sk pk rng1 H1 H2 H3 EK fs junk rng m sig0 sig num rng' H4 H5 ES fv junk' Hf.
  rewrite keygen_eq in EK by auto. rewrite sign_eq in ES by auto. rewrite verify_eq by auto.
  apply (C01_correct (big_prim X p) p wf (big_lawful X p LX) fk sk pk) with (fs := fs) (junk := junk) (rng := rng) (sig0 := sig0) (num := num) (rng' := rng'); auto.
  exists junk0, rng0, rng1, sk0, pk0. auto.
Qed.

(** There, too, verification under a key made there is defined on every signature of the right length. *)
Theorem C64_safe : forall X p, wf_params p -> lawful X (hash_len p) ->
  forall fk junk0 rng0 sk0 pk0 sk pk rng1, length sk0 = sizeof_sk p -> length pk0 = sizeof_pk p -> bytes pk0 ->
    LESS_keygen_big X p fk junk0 rng0 sk0 pk0 = Ok (sk, pk, rng1) ->
  forall fuel junk m sig, length sig = sizeof_sign p -> bytes sig ->
    LESS_verify_big X p fuel junk pk m sig <> UB /\
    forall r, LESS_verify_big X p fuel junk pk m sig = Ok r -> r = 0 \/ r = 1.
Proof.
  intros X p wf LX fk junk0 rng0 sk0 pk0 sk pk rng1 H1 H2 H3 EK fuel junk m sig HL HB. rewrite keygen_eq in EK by auto. rewrite verify_eq by auto.
  apply (C05_verify_safe (big_prim X p) p wf (big_lawful X p LX) fk sk pk); auto. exists junk0, rng0, rng1, sk0, pk0. auto.
Qed.

Definition toy_keys_big : res (list Z * list Z * Z) :=
  LESS_keygen_big toyX toy_params 1000 toy_junk 5 (repeat 9 (sizeof_sk toy_params)) (repeat 9 (sizeof_pk toy_params)).
Definition toy_sk_big : list Z := Eval vm_compute in fst (fst (okd ([], [], 0) toy_keys_big)).
Definition toy_pk_big : list Z := Eval vm_compute in snd (fst (okd ([], [], 0) toy_keys_big)).
Definition toy_rng_big : Z := Eval vm_compute in snd (okd ([], [], 0) toy_keys_big).
Definition toy_sign_big : res (list Z * nat * Z) :=
  LESS_sign_big toyX toy_params 1000 toy_junk 80 toy_sk_big toy_msg (repeat 3 (sizeof_sign toy_params)).
Definition toy_sig_big : list Z := Eval vm_compute in fst (fst (okd ([], 0%nat, 0) toy_sign_big)).
Definition toy_num_big : nat := Eval vm_compute in snd (fst (okd ([], 0%nat, 0) toy_sign_big)).
Definition toy_rng80_big : Z := Eval vm_compute in snd (okd ([], 0%nat, 0) toy_sign_big).

(** The hypotheses of [C64_correct] are met by a run: the same secret bytes as on the other host, another public key. *)
Example C64_correct_example :
  LESS_keygen_big toyX toy_params 1000 toy_junk 5 (repeat 9 (sizeof_sk toy_params)) (repeat 9 (sizeof_pk toy_params)) = Ok (toy_sk_big, toy_pk_big, toy_rng_big) /\
  LESS_sign_big toyX toy_params 1000 toy_junk 80 toy_sk_big toy_msg (repeat 3 (sizeof_sign toy_params)) = Ok (toy_sig_big, toy_num_big, toy_rng80_big) /\
  LESS_verify_big toyX toy_params 1000 toy_junk toy_pk_big toy_msg toy_sig_big = Ok 1 /\ toy_sk_big = toy_sk /\ toy_pk_big <> toy_pk.
Proof.
  assert (E1 : LESS_keygen_big toyX toy_params 1000 toy_junk 5 (repeat 9 (sizeof_sk toy_params)) (repeat 9 (sizeof_pk toy_params)) = Ok (toy_sk_big, toy_pk_big, toy_rng_big))
    by (vm_compute; reflexivity).
  assert (E2 : LESS_sign_big toyX toy_params 1000 toy_junk 80 toy_sk_big toy_msg (repeat 3 (sizeof_sign toy_params)) = Ok (toy_sig_big, toy_num_big, toy_rng80_big))
    by (vm_compute; reflexivity).
  split; [exact E1|]. split; [exact E2|]. split; [|split; [reflexivity|vm_compute; discriminate]].
  apply (C64_correct toyX toy_params toy_wf toyX_lawful _ _ _ _ _ _ _ _ (repeat_length _ _) (repeat_length _ _) (repeat_bytes 9 _ ltac:(unfold is_byte; lia)) E1
    _ _ _ _ _ _ _ _ (repeat_length _ _) (repeat_bytes 3 _ ltac:(unfold is_byte; lia)) E2). lia.
Qed.

(** But keys and signatures do not travel: the little-endian host refuses what the other has made. *)
Theorem C64_exchange_refuted :
  exists X p junk rng rng1 sk0 pk0 sk pk rng' rng2 m sig0 sig num, wf_params p /\ lawful X (hash_len p) /\
    length sk0 = sizeof_sk p /\ length pk0 = sizeof_pk p /\ bytes pk0 /\ LESS_keygen_big X p 1000 junk rng sk0 pk0 = Ok (sk, pk, rng1) /\
    length sig0 = sizeof_sign p /\ bytes sig0 /\ LESS_sign_big X p 1000 junk rng' sk m sig0 = Ok (sig, num, rng2) /\
    LESS_verify X p 1000 junk pk m sig = Ok 0.
Proof.
  exists toyX, toy_params, toy_junk, 5, toy_rng_big, (repeat 9 (sizeof_sk toy_params)), (repeat 9 (sizeof_pk toy_params)), toy_sk_big, toy_pk_big, 80, toy_rng80_big, toy_msg,
    (repeat 3 (sizeof_sign toy_params)), toy_sig_big, toy_num_big.
  split; [apply toy_wf|]. split; [apply toyX_lawful|].
  split; [apply repeat_length|]. split; [apply repeat_length|]. split; [apply repeat_bytes; unfold is_byte; lia|]. split; [apply C64_correct_example|].
  split; [apply repeat_length|]. split; [apply repeat_bytes; unfold is_byte; lia|]. split; [apply C64_correct_example|]. vm_compute. reflexivity.
Qed.

Print Assumptions C64_same.
Print Assumptions C64_correct.
Print Assumptions C64_safe.
Print Assumptions C64_exchange_refuted.
