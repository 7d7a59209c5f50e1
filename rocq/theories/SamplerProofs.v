(** Rejection samplers, the permutation shuffle and the challenge expansion. *)
From Verif Require Import Base BaseLemmas Params ParamsProofs Fq Prim Samplers Monomial Codes Utils Spec FqProofs
  EnumProofs MonoProofs BitCodec.

Section S.
Variable X : prim.

(** *** Range samplers *)
Lemma rand_chunks_spec chunks minv span num word count buf : 0 <= minv -> minv + span < 256 ->
  (count < num)%nat -> length buf = num ->
  (forall i, (i < count)%nat -> minv <= nthZ buf i <= minv + span) ->
  okp (rand_chunks chunks minv span 7 num word count buf) (fun '(fin, (count', buf')) =>
    length buf' = num /\ (forall i, (i < count')%nat -> minv <= nthZ buf' i <= minv + span) /\
    (if (fin : bool) then count' = num else (count' < num)%nat)).
Proof.
  intros Hm Hs. revert word count buf. induction chunks as [|ch IH]; intros word count buf HC HL HR; cbn [rand_chunks].
  - apply okp_ok. auto.
  - cbv zeta. set (v := u8 (Z.land word (2 ^ 7 - 1))).
    assert (Hv : 0 <= v < 128).
    { unfold v. rewrite land_pred by lia. rewrite u8_id; change (2 ^ 7) with 128; lia. }
    eapply okp_bind with (Q := fun '(count', buf') => length buf' = num /\ (count' <= num)%nat /\
      (forall i, (i < count')%nat -> minv <= nthZ buf' i <= minv + span)).
    { destruct (Z.leb_spec v span).
      - rewrite set_ok by lia. cbn [bind]. apply okp_ok. split. { rewrite upd_length; auto. } split; [lia|].
        intros i Hi. unfold nthZ. rewrite nth_upd by lia. destruct (Nat.eqb_spec count i).
        + rewrite u8_id by lia. lia.
        + apply HR. lia.
      - apply okp_ok. split; auto. split; [lia|auto]. }
    intros [count' buf'] (H1 & H2 & H3). destruct (Nat.leb_spec num count').
    + apply okp_ok. split; auto. split; auto. lia.
    + apply IH; auto.
Qed.

Lemma rand_loop_spec fuel minv span num st count buf : 0 <= minv -> minv + span < 256 ->
  (count < num)%nat -> length buf = num ->
  (forall i, (i < count)%nat -> minv <= nthZ buf i <= minv + span) ->
  wp (rand_loop X fuel minv span 7 num st count buf) (fun '(buf', _) =>
    length buf' = num /\ forall i, (i < num)%nat -> minv <= nthZ buf' i <= minv + span).
Proof.
  intros Hm Hs. revert st count buf. induction fuel as [|f IH]; intros st count buf HC HL HR; cbn [rand_loop].
  - exact I.
  - destruct (x_squeeze X 8 st) as [bs st']. eapply wp_bind.
    { apply okp_wp. apply rand_chunks_spec; eauto. }
    intros [fin [count' buf']] (H1 & H2 & H3). destruct fin.
    + cbn [wp]. subst count'. auto.
    + apply IH; auto.
Qed.

Lemma fq_star_spec fuel num st buf : (0 < num)%nat -> length buf = num ->
  wp (fq_star_rnd_state_elements X fuel num st buf) (fun '(b, _) => length b = num /\ Forall fq_unit b).
Proof.
  intros H L. unfold fq_star_rnd_state_elements, def_rand.
  change (bits_to_represent (126 - 1)) with 7. change (126 - 1) with 125.
  eapply wp_mono. { apply rand_loop_spec; auto; try lia. }
  intros [b st'] (H1 & H2). split; auto. apply Forall_nth_Z. intros i Hi. specialize (H2 i ltac:(lia)).
  unfold fq_unit. lia.
Qed.

Lemma rand_range_q_spec fuel num st buf : (0 < num)%nat -> length buf = num ->
  wp (rand_range_q_state_elements X fuel num st buf) (fun '(b, _) => length b = num /\ Forall fq b).
Proof.
  intros H L. unfold rand_range_q_state_elements, def_rand.
  change (bits_to_represent (126 - 0)) with 7. change (126 - 0) with 126.
  eapply wp_mono. { apply rand_loop_spec; auto; try lia. }
  intros [b st'] (H1 & H2). split; auto. apply Forall_nth_Z. intros i Hi. specialize (H2 i ltac:(lia)).
  unfold fq. lia.
Qed.

Section P.
Variable p : params.
Hypothesis wf : wf_params p.
Notation N := (pN p).
Notation K := (pK p).
Notation w := (pN p - pK p)%nat.

(** *** Shuffle *)
Lemma le_val_nonneg l : bytes l -> 0 <= le_val l.
Proof. intros H. apply le_val_range in H. lia. Qed.

Lemma yt_shuffle_spec st perm : lawful X (hash_len p) -> perm_list N perm ->
  okp (yt_shuffle_state X p st perm) (fun '(perm', _) => perm_list N perm').
Proof.
  intros LX HP. pose proof (wf_K p wf) as HK.
  assert (HN : Z.of_nat N < 1024). { pose proof (wf_cat p wf) as C. destruct (p_cat p); lia. }
  unfold yt_shuffle_state.
  destruct (x_squeeze X (4 * N) st) as [bs st'] eqn:ES.
  assert (Lbs : length bs = (4 * N)%nat). { pose proof (law_sq_len _ _ LX (4 * N) st) as E. rewrite ES in E. auto. }
  assert (Bbs : bytes bs). { pose proof (law_sq_bytes _ _ LX (4 * N) st) as E. rewrite ES in E. auto. }
  eapply okp_bind with (Q := fun r => length r = N /\ forall i, (i < N - 1)%nat -> Z.of_nat i <= nthZ r i < Z.of_nat N).
  { eapply okp_mono. apply okp_for with (I := fun n r => length r = N /\ (forall i, (i < N)%nat -> 0 <= nthZ r i) /\
      forall i, (i < n)%nat -> Z.of_nat i <= nthZ r i < Z.of_nat N).
    - split. { unfold words32. rewrite map_length, seq_length. auto. } split; [|intros; lia].
      intros i Hi. unfold nthZ, words32. rewrite nth_map_seq by auto.
      apply le_val_nonneg. apply Forall_firstn, Forall_skipn. auto.
    - intros i r Hi (H1 & H0 & H2). rewrite (get_ok _ i 0) by lia. cbn [bind]. rewrite set_ok by lia. apply okp_ok.
      assert (B : 0 <= nth i r 0 mod (Z.of_nat N - Z.of_nat i) < Z.of_nat N - Z.of_nat i) by (apply Z.mod_pos_bound; lia).
      assert (E : u32 (Z.of_nat i + nth i r 0 mod (Z.of_nat N - Z.of_nat i)) = Z.of_nat i + nth i r 0 mod (Z.of_nat N - Z.of_nat i)).
      { unfold u32. apply Z.mod_small. lia. }
      split. { rewrite upd_length; auto. } split.
      + intros j Hj. unfold nthZ. rewrite nth_upd by lia. destruct (Nat.eqb_spec i j); [|apply H0; auto]. rewrite E. lia.
      + intros j Hj. unfold nthZ. rewrite nth_upd by lia. destruct (Nat.eqb_spec i j) as [<-|]; [|apply H2; lia]. rewrite E. lia.
    - intros r (H1 & _ & H2). auto. }
  intros r (Lr & Hr). eapply okp_bind with (Q := perm_list N).
  2:{ intros pm H. apply okp_ok. exact H. }
  eapply okp_mono. apply okp_for with (I := fun _ pm => perm_list N pm).
  - exact HP.
  - intros i pm Hi HPm. pose proof (perm_list_len _ _ HPm) as Lp.
    rewrite (get_ok _ i 0) by lia. cbn [bind]. rewrite (get_ok _ i 0) by lia. cbn [bind].
    specialize (Hr i ltac:(lia)). unfold nthZ in Hr. remember (Z.to_nat (nth i r 0)) as k eqn:Ek. assert (Hk : (k < N)%nat) by lia. clear Ek Hr.
    rewrite (get_ok _ k 0) by lia. cbn [bind]. rewrite set_ok by lia. cbn [bind].
    rewrite set_ok by (rewrite upd_length; lia). apply okp_ok.
    pose proof (perm_list_nodup _ _ HPm) as ND. rewrite (NoDup_nth pm 0) in ND.
    apply perm_list_intro.
    + rewrite !upd_length. auto.
    + intros j Hj. unfold nthZ. rewrite nth_upd by (rewrite upd_length; lia).
      destruct (Nat.eqb_spec k j). { apply (perm_list_range N pm); auto. lia. }
      rewrite nth_upd by lia. destruct (Nat.eqb_spec i j); apply (perm_list_range N pm); auto.
    + intros a b Ha Hb. unfold nthZ. rewrite !nth_upd by (rewrite ?upd_length; lia).
      destruct (Nat.eqb_spec k a), (Nat.eqb_spec k b), (Nat.eqb_spec i a), (Nat.eqb_spec i b); intros E;
        subst; auto; try lia; apply ND in E; lia.
  - auto.
Qed.

(** *** Monomials from seeds *)
Lemma pos_t_lt_N x : 0 <= x < Z.of_nat N -> pos_t p x = x.
Proof.
  intros H. unfold pos_t, pos_mod. pose proof (wf_cat p wf) as C. apply Z.mod_small. destruct (p_cat p); lia.
Qed.

Lemma monomial_expand_spec fuel r input : lawful X (hash_len p) -> mono_mem p r ->
  wp (monomial_expand X p fuel r input) (mono_ok p).
Proof.
  intros LX (M1 & M2). pose proof (wf_K p wf) as HK. unfold monomial_expand.
  eapply wp_bind. { apply fq_star_spec; auto. lia. }
  intros [coefs st1] (C1 & C2). eapply wp_bind with (Q := perm_list N).
  { apply okp_wp. eapply okp_mono. apply okp_for with (I := fun n pm => length pm = N /\
      forall i, (i < n)%nat -> nthZ pm i = Z.of_nat i).
    - split; auto. intros; lia.
    - intros i pm Hi (H1 & H2). rewrite set_ok by lia. apply okp_ok. split. { rewrite upd_length; auto. }
      intros j Hj. unfold nthZ. rewrite nth_upd by lia. destruct (Nat.eqb_spec i j) as [<-|].
      + apply pos_t_lt_N. lia.
      + apply H2. lia.
    - intros pm (H1 & H2). cbn [Nat.add] in H2. apply perm_list_intro; auto.
      + intros i Hi. rewrite H2 by auto. lia.
      + intros i j Hi Hj. rewrite !H2 by auto. lia. }
  intros perm HP. eapply wp_bind. { apply okp_wp. apply yt_shuffle_spec; auto. }
  intros [perm' st2] HP'. cbn [wp]. constructor; auto.
Qed.

(** *** Generator from its seed *)
Lemma generator_SF_seed_expand_spec fuel r seed : shape K w (r_vals r) -> length (r_pos r) = w ->
  wp (generator_SF_seed_expand X p fuel r seed) (fun c => shape K w (r_vals c) /\ length (r_pos c) = w /\
    (forall i j, (i < K)%nat -> (j < w)%nat -> fq (ent (r_vals c) i j)) /\
    (forall j, (j < w)%nat -> nthZ (r_pos c) j = Z.of_nat (j + K))).
Proof.
  intros HS HP. pose proof (wf_K p wf) as HK. unfold generator_SF_seed_expand.
  eapply wp_bind with (Q := fun '(v, _) => shape K w v /\ forall i j, (i < K)%nat -> (j < w)%nat -> fq (ent v i j)).
  { eapply wp_mono. apply wp_for with (I := fun n '(v, _) => shape K w v /\ forall i j, (i < n)%nat -> (j < w)%nat -> fq (ent v i j)).
    - split; auto. intros; lia.
    - intros i [v st] Hi (H1 & H2). rewrite (get_ok _ i []) by (rewrite (shape_len _ _ _ H1); lia). cbn [bind].
      eapply wp_bind. { apply rand_range_q_spec. lia. apply (shape_row _ _ _ _ H1). lia. }
      intros [row' st'] (L & F). rewrite set_ok by (rewrite (shape_len _ _ _ H1); lia). cbn [bind wp].
      split. { apply shape_upd; auto. } intros a j Ha Hj. rewrite (ent_upd _ K w) by (auto; lia).
      destruct (Nat.eqb_spec i a).
      + rewrite Forall_nth_Z in F. apply F. lia.
      + apply H2; lia.
    - intros [v st] H. exact H. }
  intros [v st] (V1 & V2). eapply wp_bind with (Q := fun ps => length ps = w /\ forall j, (j < w)%nat -> nthZ ps j = Z.of_nat (j + K)).
  { apply okp_wp. eapply okp_mono. apply okp_for with (I := fun n ps => length ps = w /\ forall j, (j < n)%nat -> nthZ ps j = Z.of_nat (j + K)).
    - split; auto. intros; lia.
    - intros i ps Hi (H1 & H2). rewrite set_ok by lia. apply okp_ok. split. { rewrite upd_length; auto. }
      intros j Hj. unfold nthZ. rewrite nth_upd by lia. destruct (Nat.eqb_spec i j) as [<-|].
      + apply pos_t_lt_N. lia.
      + apply H2. lia.
    - intros ps H. cbn [Nat.add] in H. exact H. }
  intros ps (P1 & P2). cbn [wp r_vals r_pos]. auto.
Qed.

(** *** Fixed-weight challenge *)
Lemma kp_bits_range : 1 <= kp_bits p <= 7.
Proof.
  unfold kp_bits. pose proof (wf_nk p wf). rewrite bits_spec by lia.
  assert (0 <= Z.log2 (Z.of_nat (p_nk p) - 1)) by apply Z.log2_nonneg.
  assert (Z.log2 (Z.of_nat (p_nk p) - 1) < 7) by (apply Z.log2_lt_pow2; lia). lia.
Qed.

Lemma pos_bits_range : 1 <= pos_bits p.
Proof.
  unfold pos_bits. pose proof (wf_T p wf). rewrite bits_spec by lia.
  assert (0 <= Z.log2 (Z.of_nat (pT p) - 1)) by apply Z.log2_nonneg. lia.
Qed.

Lemma draw_position_spec fuel fws st : length fws = pT p ->
  wp (draw_position X p fuel fws st) (fun '(v, pos, _) =>
    0 <= v < Z.of_nat (p_nk p) /\ 0 <= pos < Z.of_nat (pT p) /\ nthZ fws (Z.to_nat pos) = 0).
Proof.
  intros L. revert st. induction fuel as [|f IH]; intros st; cbn [draw_position]. { exact I. }
  destruct (x_squeeze X 2 st) as [bs st']. cbv zeta.
  pose proof kp_bits_range as KB. pose proof pos_bits_range as PB.
  rewrite !land_pred by lia.
  set (v := u8 (le_val bs mod 2 ^ kp_bits p)).
  set (pos := pos_t p (pos_t p (Z.shiftr (le_val bs) (kp_bits p)) mod 2 ^ pos_bits p)).
  assert (Hv : 0 <= v) by (unfold v, u8; lia).
  assert (Hp : 0 <= pos). { unfold pos, pos_t at 1, pos_mod. destruct (p_cat p); lia. }
  destruct (Z.leb_spec (Z.of_nat (p_nk p)) v) as [A|A]; cbn [orb]. { apply IH. }
  destruct (Z.leb_spec (Z.of_nat (pT p)) pos) as [B|B]. { apply IH. }
  rewrite (get_ok _ _ 0) by lia. cbn [bind].
  destruct (Z.eqb_spec (nth (Z.to_nat pos) fws 0) 0) as [E|E]; cbn [negb].
  - cbn [wp]. split; [lia|]. split; [lia|]. exact E.
  - apply IH.
Qed.

Lemma weight_upd l i v : (i < length l)%nat -> nthZ l i = 0 -> v <> 0 -> weight (upd l i v) = S (weight l).
Proof.
  unfold weight, nthZ. revert i. induction l as [|x l IH]; intros i Hi E Hv; [simpl in Hi; lia|].
  destruct i; cbn [upd filter nth length] in *.
  - subst x. destruct (Z.eqb_spec v 0); [lia|]. cbn. reflexivity.
  - destruct (x =? 0); cbn [negb length]; rewrite IH; auto; lia.
Qed.

Lemma upd_self (l : list Z) i : (i < length l)%nat -> upd l i (nth i l 0) = l.
Proof. revert i. induction l; intros i H; simpl in *; [lia|]. destruct i; auto. rewrite IHl; auto. lia. Qed.

Lemma weight_repeat n : weight (repeat 0 n) = O.
Proof. induction n; auto. Qed.

Definition challenge_ok (fws : list Z) : Prop :=
  length fws = pT p /\ weight fws = pW p /\ Forall (fun x => 0 <= x < Z.of_nat (p_nk p)) fws.

Lemma place_elements_spec fuel dfuel placed fws st : length fws = pT p -> weight fws = placed ->
  (placed <= pW p)%nat -> Forall (fun x => 0 <= x < Z.of_nat (p_nk p)) fws ->
  wp (place_elements X p fuel dfuel placed fws st) challenge_ok.
Proof.
  revert placed fws st. induction fuel as [|f IH]; intros placed fws st L Wt Hp F; cbn [place_elements]. { exact I. }
  destruct (Nat.ltb_spec placed (pW p)).
  - eapply wp_bind. { apply draw_position_spec; auto. }
    intros [[v pos] st'] (H1 & H2 & H3). rewrite set_ok by lia. cbn [bind].
    apply IH.
    + rewrite upd_length. auto.
    + destruct (Z.eqb_spec v 0) as [->|Hv].
      * rewrite <- H3. unfold nthZ. rewrite upd_self by lia. auto.
      * rewrite weight_upd; auto; lia.
    + destruct (v =? 0); lia.
    + apply Forall_upd; auto.
  - cbn [wp]. split; auto. split; [lia|auto].
Qed.

Lemma expand_digest_spec fuel digest :
  wp (expand_digest_to_fixed_weight X p fuel (repeat 0 (pT p)) digest) challenge_ok.
Proof.
  unfold expand_digest_to_fixed_weight. apply place_elements_spec.
  - apply repeat_length.
  - apply weight_repeat.
  - lia.
  - apply Forall_forall. intros x Hx. apply repeat_spec in Hx. subst. pose proof (wf_nk p wf). lia.
Qed.
End P.
End S.
