(** C55: the rejection samplers end, on all but a vanishing part of the possible streams. *)
From Verif Require Import Base BaseLemmas Params ParamsProofs Prim Samplers Utils Spec SampleSpec LessSpec SpecSampling SamplerProofs
  PropSamplers PropSpec PropUniform Toy UniformProofs Count EndProofs.

(** *** Field elements *)

(** The sampler runs out of [fuel] words exactly if they contain fewer than [num] chunks in range, and otherwise ends
    (first part). Of the 2^(64 n) sequences of n words, exactly 2^n C(9n, j) a^j (128 - a)^(9n - j) contain j such chunks,
    where a = 127 - minv is the number of values in range (second part). *)
Theorem C55_elements : forall minv, minv = 0 \/ minv = 1 -> forall num, (0 < num)%nat ->
  (forall X, (forall n s, bytes (fst (x_squeeze X n s)) /\ length (fst (x_squeeze X n s)) = n) -> forall fuel st buf, length buf = num ->
     ((length (samples minv 126 (draw_words X fuel st)) < num)%nat -> def_rand X minv 126 fuel num st buf = NoFuel) /\
     ((num <= length (samples minv 126 (draw_words X fuel st)))%nat -> exists vals st', def_rand X minv 126 fuel num st buf = Ok (vals, st'))) /\
  (forall n j, number (fun ws => length ws = n /\ words64 ws /\ length (samples minv 126 ws) = j)
     (2 ^ Z.of_nat n * (choose (9 * n) j * (127 - minv) ^ Z.of_nat j * (1 + minv) ^ Z.of_nat (9 * n - j)))).
Proof.
  intros minv Hm num Hn. split.
  - intros X HX fuel st buf HL.
    destruct (C23_sampler X (fun n s => proj1 (HX n s)) minv 126 Hm eq_refl fuel num st buf Hn HL) as (A & B & C).
    split; [exact C|]. intros Hle. destruct (B Hle) as (n & N1 & N2 & N3). rewrite (A n N1 N2 N3). eauto.
  - intros n j. pose proof (word_count (126 - minv) ltac:(lia) n j) as H. unfold chunk_number in H.
    replace (126 - minv + 1) with (127 - minv) in H by lia. replace (127 - (126 - minv)) with (1 + minv) in H by lia.
    eapply number_ext; [|exact H]. intros ws. cbn. unfold samples, accepted. rewrite map_length. reflexivity.
Qed.

(** At most num 2^(6 num) in 2^(45 n) sequences of n words contain fewer than [num] chunks in range. *)
Theorem C55_elements_bound : forall minv, minv = 0 \/ minv = 1 -> forall num n,
  exists m, number (fun ws => length ws = n /\ words64 ws /\ (length (samples minv 126 ws) < num)%nat) m /\
    m * 2 ^ (45 * Z.of_nat n) <= Z.of_nat num * 2 ^ (6 * Z.of_nat num) * 2 ^ (64 * Z.of_nat n).
Proof.
  intros minv Hm num n. eexists. split; [|apply (few_bound (126 - minv) n num); lia].
  eapply number_ext; [|apply (number_classes _ _ num (fun j _ => word_count (126 - minv) ltac:(lia) n j))].
  - cbn. intros ws. unfold samples, accepted. rewrite map_length. split.
    + intros (j & Hj & H1 & H2 & H3). split; auto. split; auto. lia.
    + intros (H1 & H2 & H3). eexists. split; [exact H3|]. auto.
  - cbn. intros i j ws (_ & _ & H1) (_ & _ & H2). lia.
Qed.

(** With 45 n >= 7 num + s words, the part of the sequences that does not end the sampler is at most 2^-s. *)
Theorem C55_elements_vanish : forall minv, minv = 0 \/ minv = 1 -> forall num n s, (7 * num + s <= 45 * n)%nat ->
  exists m, number (fun ws => length ws = n /\ words64 ws /\ (length (samples minv 126 ws) < num)%nat) m /\
    m * 2 ^ Z.of_nat s <= 2 ^ (64 * Z.of_nat n).
Proof.
  intros minv Hm num n s Hn. destruct (C55_elements_bound minv Hm num n) as (m & HM & HB). exists m. split; auto.
  pose proof (number_nonneg _ _ HM) as M0.
  assert (P : Z.of_nat num <= 2 ^ Z.of_nat num) by (apply Z.lt_le_incl, Z.pow_gt_lin_r; lia).
  assert (E : forall a, 0 <= a -> 0 < 2 ^ a) by (intros; apply Z.pow_pos_nonneg; lia).
  apply (Z.mul_le_mono_pos_r _ _ (2 ^ (7 * Z.of_nat num))); [apply E; lia|].
  eapply Z.le_trans with (m * 2 ^ (45 * Z.of_nat n)).
  - rewrite <- Z.mul_assoc, <- Z.pow_add_r by lia. apply Z.mul_le_mono_nonneg_l; auto. apply Z.pow_le_mono_r; lia.
  - eapply Z.le_trans; [exact HB|]. rewrite Z.mul_comm. apply Z.mul_le_mono_nonneg_l. { pose proof (E (64 * Z.of_nat n)). lia. }
    replace (7 * Z.of_nat num) with (Z.of_nat num + 6 * Z.of_nat num) by lia. rewrite Z.pow_add_r by lia.
    apply Z.mul_le_mono_nonneg_r; auto. pose proof (E (6 * Z.of_nat num)). lia.
Qed.

(** *** Challenges *)

(** A half-word has room for a key number and a position. *)
Definition room (p : params) : Prop := Z.log2 (Z.of_nat (p_nk p) - 1) + 1 + (Z.log2 (Z.of_nat (pT p) - 1) + 1) <= 16.

(** The number of positions that the words [ws] fill. *)
Definition positions (p : params) (ws : list Z) : nat := weight (fold_left (place p) ws (repeat 0 (pT p))).

Lemma positions_mono p : wf_params p -> forall a b, words16 (a ++ b) -> (positions p a <= positions p (a ++ b))%nat.
Proof.
  intros wf a b. revert a. induction b as [|x b IH]; intros a Hab. { rewrite app_nil_r. auto. }
  eapply Nat.le_trans with (positions p (a ++ [x])).
  - unfold positions. rewrite fold_left_app. cbn [fold_left]. rewrite place_weight; auto.
    + cbv zeta. destruct (_ && _); lia.
    + rewrite fold_place_length. apply repeat_length.
    + apply Forall_app in Hab. destruct Hab as [_ H]. inversion H; auto.
  - replace (a ++ x :: b) with ((a ++ [x]) ++ b) in * by (rewrite <- app_assoc; reflexivity). apply IH. auto.
Qed.

(** The expansion ends, whatever fuel beyond n it has, if W positions are filled within n half-words; if it ends, W
    positions are filled within some number of half-words (first part). Exactly [reaching p n w] sequences of n
    half-words fill w positions (second part). *)
Theorem C55_challenge : forall p, wf_params p -> room p ->
  (forall X, lawful X (hash_len p) -> forall digest fuel,
     (forall n, (n < fuel)%nat -> (pW p <= positions p (draw_halfwords X n (x_init X digest)))%nat ->
        exists c, expand_digest_to_fixed_weight X p fuel (repeat 0 (pT p)) digest = Ok c) /\
     (forall c, expand_digest_to_fixed_weight X p fuel (repeat 0 (pT p)) digest = Ok c ->
        exists n, positions p (draw_halfwords X n (x_init X digest)) = pW p)) /\
  (forall n w, number (fun ws => length ws = n /\ words16 ws /\ positions p ws = w) (reaching p n w)).
Proof.
  intros p wf HR. split; [|intros; apply reach_count; auto]. intros X LX digest fuel.
  pose proof (wf_W p wf) as HW.
  pose proof (place_elements_place X p wf fuel fuel 0 (repeat 0 (pT p)) (x_init X digest) (repeat_length _ _) (weight_repeat _) ltac:(lia)) as H.
  unfold expand_digest_to_fixed_weight. split.
  - intros n Hn HP. destruct (place_elements _ _ _ _ _ _ _) as [c| |]; [eauto|contradiction|]. exfalso.
    assert (L : (positions p (draw_halfwords X n (x_init X digest)) < pW p)%nat).
    { destruct H as [(m & M1 & M2)|(m & M1 & M2)]; apply (M2 n); lia. } lia.
  - intros c E. rewrite E in H. destruct H as (n & H1 & H2 & _). exists n. unfold positions. unfold after in H1. rewrite <- H1. auto.
Qed.

(** The part of the sequences of n half-words that does not complete a challenge is at most 2^W (1 - q / 2^17)^n, where q is the
    number of half-words that fill the last missing position. *)
Theorem C55_challenge_bound : forall p, wf_params p -> room p -> forall n,
  exists m, number (fun ws => length ws = n /\ words16 ws /\ (positions p ws < pW p)%nat) m /\
    m * 2 ^ Z.of_nat n <= 2 ^ Z.of_nat (pW p) * (2 ^ 17 - advancing p (pW p - 1)) ^ Z.of_nat n.
Proof.
  intros p wf HR n. pose proof (wf_W p wf) as HW. exists (total (pW p) (reaching p n)). split; [|apply reach_bound; auto].
  eapply number_ext; [|apply (number_classes _ _ (pW p) (fun w _ => reach_count p wf HR n w))].
  - cbn. intros ws. split.
    + intros (j & Hj & H1 & H2 & H3). split; auto. split; auto. unfold positions. unfold filled in H3. lia.
    + intros (H1 & H2 & H3). eexists. split; [exact H3|]. auto.
  - cbn. intros i j ws (_ & _ & H1) (_ & _ & H2). lia.
Qed.

(** (M - 1)^M is at most half of M^M. *)
Lemma half_power M : 0 < M -> 2 * (M - 1) ^ M <= M ^ M.
Proof.
  intros HM.
  assert (B : forall k, 0 <= k -> (M - 1) ^ k * (M - 1) + k * (M - 1) ^ k <= M ^ k * (M - 1)).
  { apply natlike_ind. { rewrite !Z.pow_0_r. lia. } intros k Hk IH. rewrite !Z.pow_succ_r by auto.
    assert (0 <= (M - 1) ^ k) by (apply Z.pow_nonneg; lia). nia. }
  destruct (Z.eq_dec M 1) as [->|]; [cbn; lia|]. specialize (B M ltac:(lia)). assert (0 <= (M - 1) ^ M) by (apply Z.pow_nonneg; lia). nia.
Qed.

(** For every s there is a number of half-words of which all but a part of 2^-s of the sequences complete a challenge. *)
Theorem C55_challenge_vanish : forall p, wf_params p -> room p -> forall s,
  exists n m, number (fun ws => length ws = n /\ words16 ws /\ (positions p ws < pW p)%nat) m /\ m * 2 ^ Z.of_nat s <= 2 ^ (16 * Z.of_nat n).
Proof.
  intros p wf HR s. pose proof (wf_W p wf) as HW. pose proof (wf_nk p wf) as NK. assert (exists M, M = 2 ^ 17) as [M EM] by eauto. set (k := (pW p + s)%nat).
  exists (Z.to_nat (M * Z.of_nat k)). destruct (C55_challenge_bound p wf HR (Z.to_nat (M * Z.of_nat k))) as (m & HM & HB). exists m. split; auto.
  assert (MP : 0 < M) by (rewrite EM; lia).
  rewrite Z2Nat.id in * by lia. rewrite <- EM in HB.
  assert (Q : 1 <= advancing p (pW p - 1)).
  { unfold room in HR. unfold advancing. set (e := 16 - _ - _). assert (0 < 2 ^ e) by (apply Z.pow_pos_nonneg; unfold e; lia). generalize dependent (2 ^ e). intros r Hr.
    assert (A1 : 1 <= Z.of_nat (pT p) - Z.of_nat (pW p - 1)) by (clear -HW; lia). assert (A2 : 1 <= Z.of_nat (p_nk p) - 1) by (clear -NK; lia). clear -A1 A2 Hr. apply Z.lt_pred_le. apply Z.mul_pos_pos; [apply Z.mul_pos_pos|]; lia. }
  assert (Q2 : advancing p (pW p - 1) <= M).
  { assert (N : number (fun w => 0 <= w < 2 ^ 16) (2 ^ 16)) by (apply (number_range 0 (2 ^ 16)); lia).
    pose proof (zero_partial p wf) as [L _].
    (* a challenge with W - 1 entries *)
    set (c := repeat 1 (pW p - 1) ++ repeat 0 (pT p - (pW p - 1))).
    assert (LC : length c = pT p) by (unfold c; rewrite app_length, !repeat_length; lia).
    assert (WC : weight c = (pW p - 1)%nat).
    { unfold c, weight. rewrite filter_app, app_length. replace (length (filter _ (repeat 0 _))) with 0%nat.
      - clear. induction (pW p - 1)%nat; [reflexivity|]. cbn in *. lia.
      - clear. induction (pT p - (pW p - 1))%nat; auto. }
    assert (LE : advancing p (weight c) <= 2 ^ 16) by (apply (number_le _ _ _ _ (fun x H => proj1 H) (advance_count p wf HR c LC) N)). rewrite WC in LE.
    rewrite EM. change (2 ^ 17) with (2 * 2 ^ 16). lia. }
  pose proof (number_nonneg _ _ HM) as M0.
  assert (H1 : (M - advancing p (pW p - 1)) ^ (M * Z.of_nat k) <= (M - 1) ^ (M * Z.of_nat k)) by (apply Z.pow_le_mono_l; lia).
  assert (H2 : 2 ^ Z.of_nat k * (M - 1) ^ (M * Z.of_nat k) <= M ^ (M * Z.of_nat k)).
  { rewrite !Z.pow_mul_r by lia. rewrite <- Z.pow_mul_l. apply Z.pow_le_mono_l. split; [|exact (half_power M MP)].
    apply Z.mul_nonneg_nonneg; [lia|]. apply Z.pow_nonneg. lia. }
  replace (M ^ (M * Z.of_nat k)) with (2 ^ (16 * (M * Z.of_nat k)) * 2 ^ (M * Z.of_nat k)) in H2.
  2:{ rewrite <- Z.pow_add_r by lia. replace (16 * (M * Z.of_nat k) + M * Z.of_nat k) with (17 * (M * Z.of_nat k)) by ring. rewrite (Z.pow_mul_r 2 17), <- EM by lia. reflexivity. }
  unfold k in H2 at 1. rewrite Nat2Z.inj_add, Z.pow_add_r in H2 by lia.
  assert (P1 : 0 < 2 ^ (M * Z.of_nat k)) by (apply Z.pow_pos_nonneg; lia).
  assert (P2 : 0 < 2 ^ Z.of_nat (pW p)) by (apply Z.pow_pos_nonneg; lia).
  assert (P3 : 0 < 2 ^ Z.of_nat s) by (apply Z.pow_pos_nonneg; lia).
  apply (Z.mul_le_mono_pos_r _ _ (2 ^ (M * Z.of_nat k))); auto.
  eapply Z.le_trans; [|exact H2].
  eapply Z.le_trans with (2 ^ Z.of_nat s * (2 ^ Z.of_nat (pW p) * (M - advancing p (pW p - 1)) ^ (M * Z.of_nat k))).
  - replace (m * 2 ^ Z.of_nat s * 2 ^ (M * Z.of_nat k)) with (2 ^ Z.of_nat s * (m * 2 ^ (M * Z.of_nat k))) by ring. apply Z.mul_le_mono_nonneg_l; [lia|exact HB].
  - replace (2 ^ Z.of_nat (pW p) * 2 ^ Z.of_nat s * (M - 1) ^ (M * Z.of_nat k)) with (2 ^ Z.of_nat s * (2 ^ Z.of_nat (pW p) * (M - 1) ^ (M * Z.of_nat k))) by ring.
    apply Z.mul_le_mono_nonneg_l; [lia|]. apply Z.mul_le_mono_nonneg_l; [lia|exact H1].
Qed.

(** In the seven parameter sets, 4 (W + s) half-words are enough. *)
Theorem C55_parameters : Forall (fun p => room p /\ forall s, exists m,
  number (fun ws => length ws = (4 * (pW p + s))%nat /\ words16 ws /\ (positions p ws < pW p)%nat) m /\
  m * 2 ^ Z.of_nat s <= 2 ^ (16 * Z.of_nat (4 * (pW p + s)))) less_params.
Proof.
  assert (G : forall p, wf_params p -> room p -> 0 <= advancing p (pW p - 1) <= 2 ^ 17 -> 2 * (2 ^ 17 - advancing p (pW p - 1)) ^ 4 <= 2 ^ 68 -> forall s, exists m,
    number (fun ws => length ws = (4 * (pW p + s))%nat /\ words16 ws /\ (positions p ws < pW p)%nat) m /\ m * 2 ^ Z.of_nat s <= 2 ^ (16 * Z.of_nat (4 * (pW p + s)))).
  { intros p wf HR HQ H4 s. destruct (C55_challenge_bound p wf HR (4 * (pW p + s))) as (m & HM & HB). exists m. split; auto.
    pose proof (number_nonneg _ _ HM) as M0. set (A := 2 ^ 17 - advancing p (pW p - 1)) in *. set (k := (pW p + s)%nat) in *.
    replace (Z.of_nat (4 * k)) with (4 * Z.of_nat k) in * by lia.
    assert (H2 : 2 ^ Z.of_nat k * A ^ (4 * Z.of_nat k) <= 2 ^ (68 * Z.of_nat k)).
    { rewrite (Z.pow_mul_r A), (Z.pow_mul_r 2 68) by lia. rewrite <- Z.pow_mul_l. apply Z.pow_le_mono_l. split; auto.
      apply Z.mul_nonneg_nonneg; [lia|]. apply Z.pow_nonneg. lia. }
    replace (68 * Z.of_nat k) with (16 * (4 * Z.of_nat k) + 4 * Z.of_nat k) in H2 by ring. rewrite Z.pow_add_r in H2 by lia.
    unfold k in H2 at 1. rewrite Nat2Z.inj_add, Z.pow_add_r in H2 by lia.
    assert (P1 : 0 < 2 ^ (4 * Z.of_nat k)) by (apply Z.pow_pos_nonneg; lia).
    assert (P3 : 0 < 2 ^ Z.of_nat s) by (apply Z.pow_pos_nonneg; lia).
    apply (Z.mul_le_mono_pos_r _ _ (2 ^ (4 * Z.of_nat k))); auto. eapply Z.le_trans; [|exact H2].
    replace (m * 2 ^ Z.of_nat s * 2 ^ (4 * Z.of_nat k)) with (2 ^ Z.of_nat s * (m * 2 ^ (4 * Z.of_nat k))) by ring.
    replace (2 ^ Z.of_nat (pW p) * 2 ^ Z.of_nat s * A ^ (4 * Z.of_nat k)) with (2 ^ Z.of_nat s * (2 ^ Z.of_nat (pW p) * A ^ (4 * Z.of_nat k))) by ring.
    apply Z.mul_le_mono_nonneg_l; [lia|exact HB]. }
  assert (C : Forall (fun p => room p /\ 0 <= advancing p (pW p - 1) <= 2 ^ 17 /\ 2 * (2 ^ 17 - advancing p (pW p - 1)) ^ 4 <= 2 ^ 68) less_params).
  { unfold less_params. repeat constructor; vm_compute; discriminate. }
  rewrite Forall_forall in C. apply Forall_forall. intros p Hp. destruct (C p Hp) as (C1 & C2 & C3). split; auto. apply G; auto.
  pose proof less_params_wf as WF. rewrite Forall_forall in WF. auto.
Qed.

(** The numbers add up to all 2^64 words and all 2^48 sequences of three half-words; 43 words (28 are needed) give the
    252 coefficients of the first parameter sets except on 2^-128 of the sequences; 632 half-words give a challenge of
    weight 30; four half-words
    that complete a challenge of the toy parameters. *)
Example C55_example :
  total 10 (fun j => 2 ^ Z.of_nat 1 * (choose (9 * 1) j * 127 ^ Z.of_nat j * 1 ^ Z.of_nat (9 * 1 - j))) = 2 ^ 64 /\
  total 10 (fun j => 2 ^ Z.of_nat 1 * (choose (9 * 1) j * 126 ^ Z.of_nat j * 2 ^ Z.of_nat (9 * 1 - j))) = 2 ^ 64 /\
  choose 9 8 = 9 /\ (7 * 252 + 128 <= 45 * 43)%nat /\ (4 * (30 + 128) = 632)%nat /\
  room toy_params /\ total 4 (reaching toy_params 3) = 2 ^ 48 /\ map (advancing toy_params) [0; 1; 6]%nat = [24576; 20480; 0] /\
  positions toy_params [12; 1 + 4 * 0; 3] = 1%nat /\ positions toy_params [12; 1 + 4 * 0; 3; 2 + 4 * 2 + 32 * 5] = 2%nat.
Proof. repeat match goal with |- _ /\ _ => split end; try lia; vm_compute; congruence. Qed.

Print Assumptions C55_elements.
Print Assumptions C55_elements_bound.
Print Assumptions C55_elements_vanish.
Print Assumptions C55_challenge.
Print Assumptions C55_challenge_bound.
Print Assumptions C55_challenge_vanish.
Print Assumptions C55_parameters.
