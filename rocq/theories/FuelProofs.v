(** The samplers' results depend neither on the previous content of their output buffers nor
    on the iteration bound of the model: if a sampler finishes with one bound and one buffer,
    it finishes with the same result for any larger bound and any other buffer. *)
From Verif Require Import Base BaseLemmas Params ParamsProofs Prim Samplers Monomial Codes Utils MonoProofs SamplerProofs.

Definition simr {A B} (R : A -> B -> Prop) (m : res A) (m' : res B) : Prop :=
  forall a, m = Ok a -> exists a', m' = Ok a' /\ R a a'.

Lemma simr_ok {A B} (R : A -> B -> Prop) a b : R a b -> simr R (Ok a) (Ok b).
Proof. intros H x E. injection E as <-. eauto. Qed.

Lemma simr_bind {A B C D} (R : A -> B -> Prop) (Q : C -> D -> Prop) m m' f f' :
  simr R m m' -> (forall a b, R a b -> simr Q (f a) (f' b)) -> simr Q (bind m f) (bind m' f').
Proof.
  intros H1 H2 c E. apply bind_ok in E. destruct E as (a & E1 & E2).
  destruct (H1 a E1) as (b & -> & Hab). cbn [bind]. apply (H2 a b Hab c E2).
Qed.

Lemma simr_for {A B} (I : nat -> A -> B -> Prop) n start f f' a b :
  I start a b ->
  (forall i a b, (start <= i < start + n)%nat -> I i a b -> simr (I (S i)) (f i a) (f' i b)) ->
  simr (I (start + n)%nat) (for_ n start f a) (for_ n start f' b).
Proof.
  revert start a b. induction n as [|n IH]; intros start a b H0 HS; cbn [for_].
  - rewrite Nat.add_0_r. apply simr_ok. auto.
  - eapply simr_bind. { apply HS; [lia|exact H0]. }
    intros a' b' H1. replace (start + S n)%nat with (S start + n)%nat by lia. apply IH; auto.
    intros i x y Hi. apply HS. lia.
Qed.

Lemma simr_mono {A B} (R Q : A -> B -> Prop) m m' : simr R m m' -> (forall a b, R a b -> Q a b) -> simr Q m m'.
Proof. intros H HQ a E. destruct (H a E) as (b & E2 & HR). exists b. auto. Qed.

Lemma simr_set {A} (l l' : list A) i x : length l = length l' ->
  simr (fun a b => a = upd l i x /\ b = upd l' i x /\ (i < length l)%nat) (set l i x) (set l' i x).
Proof.
  intros E a H. apply set_inv in H. destruct H as [H ->]. exists (upd l' i x). rewrite set_ok by lia. auto.
Qed.

Lemma simr_eq {A} (m m' : res A) a : simr eq m m' -> m = Ok a -> m' = Ok a.
Proof. intros H E. destruct (H a E) as (b & -> & ->). auto. Qed.

Section M.
Variable X : prim.
Variable p : params.
Hypothesis wf : wf_params p.
Notation N := (pN p).
Notation K := (pK p).
Notation w := (pN p - pK p)%nat.

(** Buffers of [num] cells agreeing on the first [c]. *)
Definition agree (num c : nat) (b b' : list Z) : Prop :=
  length b = num /\ length b' = num /\ forall i, (i < c)%nat -> nth i b 0 = nth i b' 0.

Lemma agree_upd num c b b' x : agree num c b b' -> (c < num)%nat -> agree num (S c) (upd b c x) (upd b' c x).
Proof.
  intros (H1 & H2 & H3) Hc. split; [rewrite upd_length; auto|]. split; [rewrite upd_length; auto|].
  intros i Hi. rewrite !nth_upd by lia. destruct (Nat.eqb_spec c i); auto. apply H3. lia.
Qed.

Lemma agree_full num b b' : agree num num b b' -> b = b'.
Proof. intros (H1 & H2 & H3). apply (list_ext 0); [lia|]. intros i Hi. apply H3. lia. Qed.

Lemma rand_chunks_sim chunks minv span req num word c b b' : agree num c b b' -> (c <= num)%nat ->
  simr (fun '(f, (c1, b1)) '(f', (c2, b2)) => f = f' /\ c1 = c2 /\ agree num c1 b1 b2 /\ (c1 <= num)%nat /\
          (f = true -> c1 = num))
    (rand_chunks chunks minv span req num word c b) (rand_chunks chunks minv span req num word c b').
Proof.
  revert word c b b'. induction chunks as [|n IH]; intros word c b b' HA HC; cbn [rand_chunks].
  - apply simr_ok. split; auto. split; auto. split; auto. split; auto. discriminate.
  - eapply simr_bind with (R := fun '(c1, b1) '(c2, b2) => c1 = c2 /\ agree num c1 b1 b2 /\ (c1 <= num)%nat).
    + destruct (_ <=? span).
      * destruct HA as (A1 & A2 & A3). eapply simr_bind. { apply simr_set. lia. }
        intros x y (-> & -> & H). apply simr_ok. split; auto. split; [|lia]. apply agree_upd; [|lia]. split; auto.
      * apply simr_ok. auto.
    + intros [c1 b1] [c2 b2] (<- & HA' & HC'). destruct (Nat.leb_spec num c1).
      * apply simr_ok. split; auto. split; auto. split; auto. split; auto. intros; lia.
      * apply IH; auto.
Qed.

Lemma rand_loop_sim f f' minv span req num st c b b' : (f <= f')%nat -> agree num c b b' -> (c <= num)%nat ->
  simr eq (rand_loop X f minv span req num st c b) (rand_loop X f' minv span req num st c b').
Proof.
  revert f' st c b b'. induction f as [|f IH]; intros f' st c b b' Hf HA HC; cbn [rand_loop].
  - intros a E. discriminate.
  - destruct f' as [|f']; [lia|]. cbn [rand_loop]. destruct (x_squeeze X 8 st) as [bs st'].
    eapply simr_bind. { apply rand_chunks_sim; eauto. }
    intros [fin [c1 b1]] [fin' [c2 b2]] (<- & <- & HA' & HC' & HF). destruct fin.
    + apply simr_ok. rewrite (HF eq_refl) in HA'. apply agree_full in HA'. subst. auto.
    + apply IH; auto. lia.
Qed.

Lemma def_rand_sim minv maxv f f' num st b b' : (f <= f')%nat -> length b = num -> length b' = num ->
  simr eq (def_rand X minv maxv f num st b) (def_rand X minv maxv f' num st b').
Proof.
  intros. apply rand_loop_sim; auto. split; auto. split; auto. intros; lia. lia.
Qed.

Lemma simr_refl {A} (m : res A) : simr eq m m.
Proof. intros a E. exists a. auto. Qed.

(** Filling a permutation with the identity. *)
Lemma fill_sim (f : nat -> Z) num b b' : length b = num -> length b' = num ->
  simr eq (for_ num 0 (fun i pm => set pm i (f i)) b) (for_ num 0 (fun i pm => set pm i (f i)) b').
Proof.
  intros L1 L2. eapply simr_mono.
  - apply (simr_for (fun i => agree num i)). { split; auto. split; auto. intros; lia. }
    intros i x y Hi HA. pose proof HA as (A1 & A2 & A3).
    eapply simr_mono. { apply simr_set. lia. } intros u v (-> & -> & H). apply agree_upd; auto. lia.
  - intros x y HA. apply agree_full in HA. auto.
Qed.

Lemma monomial_expand_sim f f' r r' input : (f <= f')%nat -> mono_mem p r -> mono_mem p r' ->
  simr eq (monomial_expand X p f r input) (monomial_expand X p f' r' input).
Proof.
  intros Hf (R1 & R2) (R3 & R4). unfold monomial_expand.
  eapply simr_bind. { apply def_rand_sim; auto. }
  intros [c st] [c' st'] E. injection E as <- <-.
  eapply simr_bind. { apply fill_sim; auto. }
  intros pm ? <-. apply simr_refl.
Qed.

Lemma generator_SF_sim f f' r r' seed : (f <= f')%nat ->
  shape K w (r_vals r) -> length (r_pos r) = w -> shape K w (r_vals r') -> length (r_pos r') = w ->
  simr eq (generator_SF_seed_expand X p f r seed) (generator_SF_seed_expand X p f' r' seed).
Proof.
  intros Hf R1 R2 R3 R4. unfold generator_SF_seed_expand.
  eapply simr_bind with (R := eq).
  - eapply simr_mono.
    + apply (simr_for (fun i '(v, st) '(v', st') => st = st' /\ shape K w v /\ shape K w v' /\
         forall j, (j < i)%nat -> nth j v [] = nth j v' [])).
      { split; auto. split; auto. split; auto. intros; lia. }
      intros i [v st] [v' st'] Hi (<- & S1 & S2 & S3).
      pose proof (shape_len _ _ _ S1). pose proof (shape_len _ _ _ S2).
      rewrite !(get_ok _ i []) by lia. cbn [bind].
      eapply simr_bind with (R := fun a b => a = b /\ length (fst a) = w).
      { intros a Ea. pose proof (rand_range_q_spec X f w st (nth i v [])) as WS.
        rewrite Ea in WS. pose proof (wf_K p wf).
        assert (L1 : length (nth i v []) = w) by (apply (shape_row _ _ _ _ S1); lia).
        assert (L2 : length (nth i v' []) = w) by (apply (shape_row _ _ _ _ S2); lia).
        specialize (WS ltac:(lia) L1).
        destruct (def_rand_sim 0 126 f f' w st (nth i v []) (nth i v' []) Hf L1 L2 a Ea) as (b & Eb & <-).
        exists a. split; auto. split; auto. destruct a. apply WS. }
      intros [row s1] [row2 s2] (E & LR). injection E as <- <-. cbn [fst] in LR.
      rewrite !set_ok by lia. cbn [bind]. apply simr_ok. split; auto.
      split. { apply shape_upd; auto. } split. { apply shape_upd; auto. }
      intros j Hj. rewrite !nth_upd by lia. destruct (Nat.eqb i j) eqn:E; auto. apply Nat.eqb_neq in E. apply S3. lia.
    + intros [v st] [v' st'] (<- & S1 & S2 & S3). f_equal. apply (list_ext []).
      { rewrite (shape_len _ _ _ S1), (shape_len _ _ _ S2). auto. }
      intros i Hi. rewrite (shape_len _ _ _ S1) in Hi. apply S3. lia.
  - intros [v st] ? <-. eapply simr_bind. { apply fill_sim; auto. }
    intros pm ? <-. apply simr_refl.
Qed.

Lemma draw_position_sim f f' fws st : (f <= f')%nat ->
  simr eq (draw_position X p f fws st) (draw_position X p f' fws st).
Proof.
  revert f' st. induction f as [|f IH]; intros f' st Hf; cbn [draw_position].
  - intros a E. discriminate.
  - destruct f' as [|f']; [lia|]. cbn [draw_position]. destruct (x_squeeze X 2 st) as [bs st'].
    cbv zeta. destruct (_ || _). { apply IH; lia. }
    eapply simr_bind. { apply simr_refl. } intros x ? <-. destruct (negb _). { apply IH; lia. } apply simr_refl.
Qed.

Lemma place_elements_sim f f' d d' placed fws st : (f <= f')%nat -> (d <= d')%nat ->
  simr eq (place_elements X p f d placed fws st) (place_elements X p f' d' placed fws st).
Proof.
  revert f' placed fws st. induction f as [|f IH]; intros f' placed fws st Hf Hd; cbn [place_elements].
  - intros a E. discriminate.
  - destruct f' as [|f']; [lia|]. cbn [place_elements]. destruct (_ <? _)%nat; [|apply simr_refl].
    eapply simr_bind. { apply draw_position_sim; eauto. }
    intros [[v pos] s1] ? <-. eapply simr_bind. { apply simr_refl. }
    intros fws' ? <-. apply IH; auto. lia.
Qed.

Lemma expand_digest_sim f f' fws digest : (f <= f')%nat ->
  simr eq (expand_digest_to_fixed_weight X p f fws digest) (expand_digest_to_fixed_weight X p f' fws digest).
Proof. intros. apply place_elements_sim; auto. Qed.

End M.
