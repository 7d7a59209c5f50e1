(** C56: the number of challenges, and how often a signer without a secret can answer. *)
From Coq Require Import Permutation.
From Verif Require Import Base BaseLemmas Params ParamsProofs Prim Samplers Utils Spec SampleSpec LessSpec SpecSampling SamplerProofs
  SeedTreeProofs VerifyProofs SignerProofs PropSamplers PropSpec PropUniform PropBind Toy UniformProofs Count EndProofs PropEnds.

(** *** Vectors of given weight *)

Definition vectors (nk T w : nat) (c : list Z) : Prop := length c = T /\ Forall (fun x => 0 <= x < Z.of_nat nk) c /\ weight c = w.

Lemma weight_cons x c : weight (x :: c) = ((if (x =? 0)%Z then 0 else 1) + weight c)%nat.
Proof. unfold weight. cbn [filter]. destruct (x =? 0); reflexivity. Qed.

Lemma vectors_count nk T : (1 <= nk)%nat -> forall w, number (vectors nk T w) (choose T w * (Z.of_nat nk - 1) ^ Z.of_nat w).
Proof.
  intros HK. induction T as [|T IH]; intros w.
  - destruct w as [|w].
    + apply (number_one _ []). intros c. split; [intros [H _]; destruct c; [auto|discriminate]|intros ->; repeat split; auto].
    + cbn [choose]. rewrite Z.mul_0_l. apply number_none. intros c (H1 & _ & H2). destruct c; discriminate.
  - assert (I : forall x y x' y', (x : Z) :: (y : list Z) = x' :: y' -> x = x' /\ y = y') by (intros x y x' y' E; injection E; auto).
    assert (Z0 : number (fun x : Z => x = 0) 1) by (apply (number_one _ 0); tauto).
    assert (NZ : number (fun x => 0 < x < Z.of_nat nk) (Z.of_nat nk - 1)).
    { eapply number_ext; [|apply (number_range 1 (Z.of_nat nk)); lia]. intros; cbn; lia. }
    pose proof (number_pairs _ (fun _ => vectors nk T w) cons _ _ Z0 (fun _ _ => IH w) ltac:(intros; apply I; auto)) as H1.
    assert (E1 : forall c, vectors nk (S T) w c <-> (exists x c', x = 0 /\ vectors nk T w c' /\ c = x :: c') \/
      (exists x c', 0 < x < Z.of_nat nk /\ (0 < w)%nat /\ vectors nk T (w - 1) c' /\ c = x :: c')).
    { intros c. unfold vectors. split.
      - intros (L & F & C). destruct c as [|x c]; [discriminate|]. inversion F as [|? ? F1 F2]; subst. cbn [length] in L. rewrite weight_cons in *.
        destruct (Z.eqb_spec x 0).
        + left. exists x, c. split; [auto|]. split; [|auto]. split; [lia|]. split; [auto|]. lia.
        + right. exists x, c. split; [lia|]. split; [lia|]. split; [|auto]. split; [lia|]. split; [auto|]. lia.
      - intros [(x & c' & -> & (L & F & C) & ->)|(x & c' & H & J & (L & F & C) & ->)]; rewrite weight_cons; cbn [length].
        + split; [lia|]. split; [constructor; auto; lia|auto].
        + destruct (Z.eqb_spec x 0); [lia|]. split; [lia|]. split; [constructor; auto; lia|lia]. }
    destruct w as [|w].
    + replace (choose (S T) 0 * _) with (1 * (choose T 0 * (Z.of_nat nk - 1) ^ Z.of_nat 0)) by (rewrite !choose_0; lia).
      eapply number_ext; [|exact H1]. intros c. rewrite E1. cbn. split; [auto|]. intros [H|(? & ? & _ & H & _)]; [auto|lia].
    + pose proof (number_pairs _ (fun _ => vectors nk T w) cons _ _ NZ (fun _ _ => IH w) ltac:(intros; apply I; auto)) as H2.
      replace (choose (S T) (S w) * _) with (1 * (choose T (S w) * (Z.of_nat nk - 1) ^ Z.of_nat (S w)) + (Z.of_nat nk - 1) * (choose T w * (Z.of_nat nk - 1) ^ Z.of_nat w)).
      2:{ cbn [choose]. rewrite (Nat2Z.inj_succ w), Z.pow_succ_r by lia. ring. }
      eapply number_ext; [|apply (number_or _ _ _ _ H1 H2)].
      * intros c. rewrite E1. cbn [Nat.sub]. rewrite Nat.sub_0_r. cbn. split.
        -- intros [H|(x & c' & G1 & G2 & G3)]; [auto|]. right. exists x, c'. split; [auto|]. split; [lia|auto].
        -- intros [H|(x & c' & G1 & _ & G2 & G3)]; [auto|]. right. exists x, c'. auto.
      * cbn. intros c (x & c' & G1 & _ & ->) (x1 & c1 & G2 & _ & E). injection E as <- _. lia.
Qed.

(** There are C(T, W) (nk - 1)^W challenges. *)
Theorem C56_challenges : forall p, wf_params p ->
  number (full_challenge p) (choose (pT p) (pW p) * (Z.of_nat (p_nk p) - 1) ^ Z.of_nat (pW p)).
Proof.
  intros p wf. eapply number_ext; [|apply vectors_count; pose proof (wf_nk p wf); lia].
  intros c. cbn. unfold vectors, full_challenge, partial_challenge. tauto.
Qed.

(** *** Size *)

Fixpoint falling (n : Z) (k : nat) : Z := match k with O => 1 | S k' => n * falling (n - 1) k' end.

Lemma choose_absorb n : forall k, Z.of_nat (S k) * choose (S n) (S k) = Z.of_nat (S n) * choose n k.
Proof.
  induction n as [|n IH]; intros k.
  - cbn [choose]. destruct k; cbn; lia.
  - change (choose (S (S n)) (S k)) with (choose (S n) k + choose (S n) (S k)).
    rewrite Z.mul_add_distr_l, IH. destruct k as [|k]. { rewrite !choose_0. lia. }
    specialize (IH k). change (choose (S n) (S k)) with (choose n k + choose n (S k)) in *.
    rewrite !Nat2Z.inj_succ in *. nia.
Qed.

Lemma choose_falling k : forall n, choose n k * falling (Z.of_nat k) k = falling (Z.of_nat n) k.
Proof.
  induction k as [|k IH]; intros n. { rewrite choose_0. reflexivity. }
  cbn [falling]. destruct n as [|n]. { cbn [choose]. cbn. lia. }
  replace (Z.of_nat (S k) - 1) with (Z.of_nat k) by lia. replace (Z.of_nat (S n) - 1) with (Z.of_nat n) by lia.
  rewrite <- (IH n). pose proof (choose_absorb n k) as A. rewrite !Z.mul_assoc, <- A. ring.
Qed.

Lemma falling_pos k : forall n, Z.of_nat k <= n -> 0 < falling n k.
Proof. induction k as [|k IH]; intros n H; cbn [falling]; [lia|]. apply Z.mul_pos_pos; [lia|]. apply IH. lia. Qed.

(** The number of vectors of T key numbers below nk of which W are not zero is at least [bound]. *)
Definition as_many (nk T W : nat) (bound : Z) : Prop := exists m, number (vectors nk T W) m /\ bound <= m.

Lemma as_many_check nk T W bound : (1 <= nk)%nat ->
  as_many nk T W bound <-> bound * falling (Z.of_nat W) W <= falling (Z.of_nat T) W * (Z.of_nat nk - 1) ^ Z.of_nat W.
Proof.
  intros HK. pose proof (vectors_count nk T HK W) as H. rewrite <- (choose_falling W T).
  pose proof (falling_pos W (Z.of_nat W) ltac:(lia)) as D. split.
  - intros (m & H1 & H2). rewrite (number_unique _ _ _ H1 H) in H2. nia.
  - intros H2. eexists. split; [exact H|]. nia.
Qed.

(** In each parameter set this is at least 2^lambda for the security level lambda (the length of a seed in bits), and
    less than 2^(lambda + 1). *)
Theorem C56_level : Forall (fun p => exists m, number (full_challenge p) m /\
  2 ^ (8 * Z.of_nat (seed_len p)) <= m < 2 ^ (8 * Z.of_nat (seed_len p) + 1)) less_params.
Proof.
  assert (C : Forall (fun p => let m := falling (Z.of_nat (pT p)) (pW p) * (Z.of_nat (p_nk p) - 1) ^ Z.of_nat (pW p) in let d := falling (Z.of_nat (pW p)) (pW p) in
    2 ^ (8 * Z.of_nat (seed_len p)) * d <= m < 2 ^ (8 * Z.of_nat (seed_len p) + 1) * d) less_params).
  { unfold less_params. repeat constructor; vm_compute; congruence. }
  rewrite Forall_forall in *. intros p Hp. pose proof less_params_wf as WF. rewrite Forall_forall in WF.
  eexists. split; [apply C56_challenges; auto|]. specialize (C p Hp). cbv zeta in C. rewrite <- (choose_falling (pW p) (pT p)) in C.
  pose proof (falling_pos (pW p) (Z.of_nat (pW p)) ltac:(lia)) as D. destruct C as [C1 C2].
  rewrite <- Z.mul_assoc, (Z.mul_comm (falling _ _)), Z.mul_assoc in C1, C2.
  split; [apply (Z.mul_le_mono_pos_r _ _ _ D), C1|apply (Z.mul_lt_mono_pos_r _ _ _ D), C2].
Qed.

(** The weights are as small as possible for that: one less gives fewer than 2^lambda. So are the numbers of rounds,
    except in the set with T = 907, where 905 rounds would do. *)
Theorem C56_minimal : Forall (fun p => let level := 2 ^ (8 * Z.of_nat (seed_len p)) in
  ~ as_many (p_nk p) (pT p) (pW p - 1) level /\ (as_many (p_nk p) (pT p - 1) (pW p) level <-> pT p = 907%nat)) less_params /\
  as_many 3 905 37 (2 ^ 256) /\ ~ as_many 3 904 37 (2 ^ 256) /\ In (907, 37, 3)%nat (map (fun p => (pT p, pW p, p_nk p)) less_params).
Proof.
  split; [|split; [|split]].
  - assert (C : forallb (fun p => let level := 2 ^ (8 * Z.of_nat (seed_len p)) in
      let many T W := level * falling (Z.of_nat W) W <=? falling (Z.of_nat T) W * (Z.of_nat (p_nk p) - 1) ^ Z.of_nat W in
      Nat.leb 1 (p_nk p) && negb (many (pT p) (pW p - 1)%nat) && Bool.eqb (many (pT p - 1)%nat (pW p)) (Nat.eqb (pT p) 907)) less_params = true)
      by (vm_compute; reflexivity).
    rewrite forallb_forall in C. apply Forall_forall. intros p Hp. specialize (C p Hp). cbv zeta in *.
    apply andb_prop in C. destruct C as [C C3]. apply andb_prop in C. destruct C as [C1 C2]. apply Nat.leb_le in C1.
    rewrite !as_many_check by auto. rewrite <- !Z.leb_le. apply negb_true_iff in C2. apply Bool.eqb_prop in C3. rewrite C2, C3, Nat.eqb_eq. split; [discriminate|tauto].
  - apply as_many_check; [lia|]. vm_compute. congruence.
  - rewrite as_many_check by lia. rewrite <- Z.leb_le. vm_compute. congruence.
  - vm_compute. auto 10.
Qed.

(** *** Answers *)

Lemma dec_upto (P : nat -> Prop) n : (forall k, P k \/ ~ P k) -> (exists k, (k <= n)%nat /\ P k) \/ ~ exists k, (k <= n)%nat /\ P k.
Proof.
  intros D. induction n as [|n IH].
  - destruct (D 0%nat) as [H|H]; [left; eauto|right]. intros (k & Hk & Pk). assert (k = 0)%nat as -> by lia. auto.
  - destruct IH as [(k & Hk & Pk)|N]; [left; exists k; auto|]. destruct (D (S n)) as [H|H]; [left; exists (S n); auto|right].
    intros (k & Hk & Pk). destruct (Nat.eq_dec k (S n)) as [->|]; [auto|]. apply N. exists k. split; [lia|auto].
Qed.

Lemma dec_below (P : nat -> Prop) n : (forall k, P k \/ ~ P k) -> (forall k, (k < n)%nat -> P k) \/ ~ forall k, (k < n)%nat -> P k.
Proof.
  intros D. induction n as [|n IH]; [left; intros; lia|].
  destruct IH as [H|H]; [|right; intros C; apply H; intros; apply C; lia].
  destruct (D n) as [H2|H2]; [left|right; intros C; apply H2, C; lia].
  intros k Hk. destruct (Nat.eq_dec k n) as [->|]; [auto|apply H; lia].
Qed.

Lemma challenge_in_dec p ws c : challenge_in p ws c \/ ~ challenge_in p ws c.
Proof.
  unfold challenge_in. apply dec_upto. intros k.
  destruct (list_eq_dec Z.eq_dec c (fold_left (place p) (firstn k ws) (repeat 0 (pT p)))) as [H|H]; [|right; tauto].
  destruct (Nat.eq_dec (weight c) (pW p)) as [H2|H2]; [|right; tauto].
  destruct (dec_below (fun j => (weight (fold_left (place p) (firstn j ws) (repeat 0%Z (pT p))) < pW p)%nat) k) as [H3|H3].
  - intros j. destruct (Nat.lt_ge_cases (weight (fold_left (place p) (firstn j ws) (repeat 0 (pT p)))) (pW p)); [auto|right; lia].
  - left. auto.
  - right. tauto.
Qed.

Lemma number_some {A} (P Q : A -> Prop) a : (forall x, Q x \/ ~ Q x) -> number P a -> exists b, number (fun x => P x /\ Q x) b.
Proof.
  intros DQ (L & N1 & I1 & _).
  assert (R : exists M, NoDup M /\ forall x, In x M <-> In x L /\ Q x).
  { clear I1. induction N1 as [|x L Hx _ (M & N2 & I2)]. { exists []. split; [constructor|]. cbn. tauto. }
    destruct (DQ x) as [H|H].
    - exists (x :: M). split. { constructor; auto. rewrite I2. tauto. }
      intros y. cbn [In]. rewrite I2. split; [intros [->|[H1 H2]]; tauto|tauto].
    - exists M. split; auto. intros y. rewrite I2. cbn [In]. split; [tauto|]. intros [[->|H1] H2]; tauto. }
  destruct R as (M & N2 & I2). exists (Z.of_nat (length M)), M. split; auto. split; auto. intros x. rewrite I2, I1. reflexivity.
Qed.

(** Words complete at most one challenge. *)
Lemma challenge_in_det p ws c c' : challenge_in p ws c -> challenge_in p ws c' -> c = c'.
Proof.
  intros (k & _ & E & W & B) (k' & _ & E' & W' & B').
  assert (k = k') as <-; [|congruence].
  destruct (Nat.lt_trichotomy k k') as [H|[H|H]]; auto; exfalso.
  - specialize (B' k H). rewrite <- E in B'. lia.
  - specialize (B k' H). rewrite <- E' in B. lia.
Qed.

Lemma challenge_in_full p ws c : wf_params p -> words16 ws -> challenge_in p ws c -> full_challenge p c.
Proof.
  intros wf HW (k & _ & -> & W & _). split; auto.
  assert (G : forall l c, words16 l -> partial_challenge p c -> partial_challenge p (fold_left (place p) l c)).
  { induction l as [|w l IH]; intros c Hl Hc; cbn [fold_left]; auto. apply IH; [inversion Hl; auto|]. apply place_partial; auto. }
  apply G; [|apply zero_partial; auto]. apply Forall_forall. intros x Hx. rewrite <- (firstn_skipn k ws) in HW.
  apply Forall_app in HW. destruct HW as [HW _]. rewrite Forall_forall in HW. auto.
Qed.

(** Every challenge is completed by the same number of sequences of n half-words. *)
Theorem C56_equal : forall p, wf_params p -> room p -> forall n, exists e, forall c, full_challenge p c ->
  number (fun ws => length ws = n /\ words16 ws /\ challenge_in p ws c) e.
Proof.
  intros p wf HR n. pose proof (wf_W p wf) as HW. pose proof (wf_nk p wf) as NK.
  set (c0 := repeat 1 (pW p) ++ repeat 0 (pT p - pW p)).
  assert (F0 : full_challenge p c0).
  { split; [split|].
    - unfold c0. rewrite app_length, !repeat_length. lia.
    - unfold c0. apply Forall_app. split; apply Forall_forall; intros x Hx; apply repeat_spec in Hx; lia.
    - unfold c0, weight. rewrite filter_app, app_length. replace (length (filter _ (repeat 0 _))) with 0%nat.
      + clear. induction (pW p); [reflexivity|]. cbn in *. lia.
      + clear. induction (pT p - pW p)%nat; auto. }
  pose proof (number_lists (fun w => 0 <= w < 2 ^ 16) (2 ^ 16 - 0) n ltac:(apply number_range; lia)) as HA.
  destruct (number_some _ (fun ws => challenge_in p ws c0) _ (fun ws => challenge_in_dec p ws c0) HA) as (e & He).
  exists e. intros c Fc. destruct (C51_challenge p wf HR) as [_ EX]. destruct (EX c0 c F0 Fc) as (f & g & FG & H).
  assert (MF : forall ws, words16 ws -> words16 (map f ws) /\ words16 (map g ws) /\ map f (map g ws) = ws /\ map g (map f ws) = ws).
  { clear - FG. induction ws as [|w ws IH]; intros Hw; [repeat split; constructor|]. inversion Hw as [|? ? H1 H2]; subst.
    destruct (FG w H1) as (F1 & F2 & F3 & F4). destruct (IH H2) as (I1 & I2 & I3 & I4). cbn [map]. rewrite I3, I4, F3, F4. repeat split; try (constructor; auto); auto. }
  eapply number_ext; [|apply (number_image _ (map f) _ He)].
  - intros ws. cbn. split.
    + intros (v & ((L & V) & C) & ->). rewrite map_length. split; auto. split; [apply MF; auto|]. apply H; auto.
    + intros (L & V & C). destruct (MF ws V) as (M1 & M2 & M3 & _). exists (map g ws). rewrite map_length, M3. split; auto. split; [split; auto|].
      apply H; auto. rewrite M3. auto.
  - intros x y [[_ V] _] [[_ V'] _] E. destruct (MF x V) as (_ & _ & _ & <-). destruct (MF y V') as (_ & _ & _ & <-). rewrite E. reflexivity.
Qed.

(** A signer who has fixed the normal forms [Vs] can answer the challenge [c] for the key [pk]. *)
Definition answerable X p (pk : list Z) (Vs : list (list (list Z))) (c : list Z) : Prop := exists sig, leads_to X p pk sig c Vs.

(** For a key with unrelated matrices, and whatever normal forms are fixed first, the sequences of n half-words that
    give a challenge that can be answered are at most one in C(T, W) (nk - 1)^W of those that give a challenge. *)
Theorem C56_soundness : forall X p, wf_params p -> lawful X (hash_len p) -> room p -> forall pk, unrelated X p pk ->
  forall Vs n, exists m, number (fun ws => length ws = n /\ words16 ws /\ exists c, challenge_in p ws c) m /\
    forall L, NoDup L -> (forall ws, In ws L -> length ws = n /\ words16 ws /\ exists c, challenge_in p ws c /\ answerable X p pk Vs c) ->
      Z.of_nat (length L) * (choose (pT p) (pW p) * (Z.of_nat (p_nk p) - 1) ^ Z.of_nat (pW p)) <= m.
Proof.
  intros X p wf LX HR pk U Vs n. destruct (C56_equal p wf HR n) as (e & He). pose proof (C56_challenges p wf) as HC.
  exists ((choose (pT p) (pW p) * (Z.of_nat (p_nk p) - 1) ^ Z.of_nat (pW p)) * e). split.
  - eapply number_ext; [|apply (number_pairs (full_challenge p) (fun c ws => length ws = n /\ words16 ws /\ challenge_in p ws c) (fun _ ws => ws) _ e HC He)].
    + intros ws. cbn. split.
      * intros (c & v & _ & (H1 & H2 & H3) & ->). eauto.
      * intros (H1 & H2 & c & H3). exists c, ws. split; auto. apply (challenge_in_full p ws); auto.
    + intros c ws c' ws' _ (_ & _ & H) _ (_ & _ & H') ->. split; auto. apply (challenge_in_det p ws'); auto.
  - intros L ND HL. rewrite (Z.mul_comm (Z.of_nat _)). pose proof (number_nonneg _ _ HC) as C0. apply Z.mul_le_mono_nonneg_l; auto.
    destruct L as [|w0 L]. { destruct (He (repeat 1 (pW p) ++ repeat 0 (pT p - pW p))) as (M & _ & _ & <-); [|cbn; lia].
      pose proof (wf_W p wf) as HW. pose proof (wf_nk p wf) as NK. split; [split|].
      - rewrite app_length, !repeat_length. lia.
      - apply Forall_app. split; apply Forall_forall; intros x Hx; apply repeat_spec in Hx; lia.
      - unfold weight. rewrite filter_app, app_length. replace (length (filter _ (repeat 0 _))) with 0%nat.
        + clear. induction (pW p); [reflexivity|]. cbn in *. lia.
        + clear. induction (pT p - pW p)%nat; auto. }
    destruct (HL w0 (or_introl eq_refl)) as (_ & HW & c & HI & sig & HS). pose proof (challenge_in_full p w0 c wf HW HI) as FC.
    destruct (He c FC) as (M & M1 & M2 & <-). apply Nat2Z.inj_le. apply NoDup_incl_length; auto.
    intros ws Hws. destruct (HL ws Hws) as (L1 & V1 & c' & I1 & sig' & S1). apply M2. split; auto. split; auto.
    pose proof (challenge_in_full p ws c' wf V1 I1) as FC'.
    assert (c = c') as <-; auto. destruct FC as ((K1 & R1) & _), FC' as ((K2 & R2) & _).
    apply (list_ext 0); [congruence|]. intros t Ht. rewrite K1 in Ht.
    destruct (C49_special_soundness X p wf LX pk sig c sig' c' Vs HS S1 t Ht) as (A & B & KA & KB & E).
    destruct (Z.eq_dec (nth t c 0) (nth t c' 0)) as [|NE]; auto. exfalso.
    rewrite Forall_forall in R1, R2.
    assert (J1 : In (nth t c 0) c) by (apply nth_In; rewrite K1; exact Ht).
    assert (J2 : In (nth t c' 0) c') by (apply nth_In; rewrite K2; exact Ht).
    apply (U _ _ A B (R1 _ J1) (R2 _ J2) NE KA KB E).
Qed.

(** In the seven parameter sets: at most a part of 2^-lambda. *)
Theorem C56_parameters : Forall (fun p => forall X, lawful X (hash_len p) -> forall pk, unrelated X p pk ->
  forall Vs n, exists m, number (fun ws => length ws = n /\ words16 ws /\ exists c, challenge_in p ws c) m /\
    forall L, NoDup L -> (forall ws, In ws L -> length ws = n /\ words16 ws /\ exists c, challenge_in p ws c /\ answerable X p pk Vs c) ->
      Z.of_nat (length L) * 2 ^ (8 * Z.of_nat (seed_len p)) <= m) less_params.
Proof.
  pose proof C56_level as CL. pose proof less_params_wf as WF. pose proof C51_room as CR. rewrite Forall_forall in *. intros p Hp X LX pk U Vs n.
  destruct (C56_soundness X p (WF p Hp) LX (CR p Hp) pk U Vs n) as (m & HM & H). exists m. split; auto. intros L ND HL.
  eapply Z.le_trans; [|apply (H L ND HL)]. destruct (CL p Hp) as (k & K1 & K2 & _). rewrite (number_unique _ _ _ K1 (C56_challenges p (WF p Hp))) in K2.
  apply Z.mul_le_mono_nonneg_l; [lia|exact K2].
Qed.

(** The toy parameters have 60 challenges; the key of C49_unrelated_example and normal forms for which one of them can be
    answered, by the half-words that give it. *)
Example C56_example : choose 6 2 * (3 - 1) ^ 2 = 60 /\ unrelated toyX toy_params toy_unrelated /\ room toy_params /\
  exists Vs, answerable toyX toy_params toy_unrelated Vs [0; 0; 2; 1; 0; 0] /\
    challenge_in toy_params [2 + 4 * 2; 0; 1 + 4 * 3] [0; 0; 2; 1; 0; 0] /\ words16 [2 + 4 * 2; 0; 1 + 4 * 3].
Proof.
  split; [reflexivity|]. split; [exact C49_unrelated_example|]. split; [vm_compute; congruence|].
  destruct C49_leads_example as (Vs & HV). exists Vs. split; [eexists; exact HV|]. split.
  - exists 3%nat. split; [cbn; lia|]. split; [reflexivity|]. split; [reflexivity|].
    intros j Hj. assert (j = 0 \/ j = 1 \/ j = 2)%nat as [->|[->| ->]] by lia; vm_compute; lia.
  - repeat constructor; lia.
Qed.

Print Assumptions C56_challenges.
Print Assumptions C56_level.
Print Assumptions C56_minimal.
Print Assumptions C56_equal.
Print Assumptions C56_soundness.
Print Assumptions C56_parameters.
