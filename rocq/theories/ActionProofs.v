(** Digest inputs: [prepare_digest_input], [apply_action_to_G], [verify_normalize]. *)
From Coq Require Import Permutation Sorted Setoid Morphisms.
From Verif Require Import Base BaseLemmas Params ParamsProofs Fq FqProofs Sums EnumProofs LinAlg Monomial Codes
  RrefProofs LexProofs SortProofs MonoProofs Less.

Section R.
Variable p : params.
Hypothesis wf : wf_params p.
Notation N := (pN p).
Notation K := (pK p).
Notation w := (pN p - pK p)%nat.
Notation C V := (column K (ent V)).

(** Normalised column [c] of a matrix. *)
Definition ncol (R : matf) (c : nat) : list Z := map (norm K (fun i => R i c)) (seq 0 K).

Lemma ncol_length R c : length (ncol R c) = K.
Proof. unfold ncol. rewrite map_length, seq_length. auto. Qed.

Lemma ncol_nth R c i : (i < K)%nat -> nth i (ncol R c) 0 = norm K (fun i => R i c) i.
Proof. intros. unfold ncol. apply nth_map_seq; auto. Qed.

(** [V] is the sorted list of normalised non-pivot columns of [R]. *)
Definition is_digest (R : matf) (fl : list Z) (V : mat) : Prop :=
  shape K w V /\ bytm p V /\
  Permutation (map (ncol R) (enum (is_np fl) N)) (columns K w (ent V)) /\
  StronglySorted lex_le (columns K w (ent V)).

Lemma is_digest_unique R fl R' fl' V V' : is_digest R fl V -> is_digest R' fl' V' ->
  Permutation (map (ncol R) (enum (is_np fl) N)) (map (ncol R') (enum (is_np fl') N)) -> V = V'.
Proof.
  intros (A1 & A2 & A3 & A4) (B1 & B2 & B3 & B4) P. eapply columns_eq; eauto.
  apply sorted_perm_unique; auto.
  eapply Permutation_trans; [apply Permutation_sym; exact A3|].
  eapply Permutation_trans; [exact P|]. auto.
Qed.

(** Collecting the normalised columns one by one. *)
Definition filled (R : matf) (fl : list Z) (n : nat) (V : mat) : Prop :=
  shape K w V /\
  forall d, (d < n)%nat -> is_np fl d = true -> C V (cnt (is_np fl) d) = ncol R d.

Lemma filled_columns R fl V : cnt (is_np fl) N = w -> filled R fl N V ->
  columns K w (ent V) = map (ncol R) (enum (is_np fl) N).
Proof.
  intros E (H1 & H2). apply (list_ext []).
  - rewrite columns_length, map_length. auto.
  - intros j Hj. rewrite columns_length in Hj. rewrite columns_nth by auto.
    rewrite (nth_indep _ [] (ncol R 0)) by (rewrite map_length; fold (cnt (is_np fl) N); lia).
    rewrite map_nth. destruct (cnt_nth_enum (is_np fl) N j 0%nat) as (D1 & D2 & D3); [lia|].
    rewrite <- H2 by auto. rewrite D3. auto.
Qed.

Lemma filled_bytm R fl V : cnt (is_np fl) N = w -> filled R fl N V -> bytm p V.
Proof.
  intros E F i j Hi Hj. pose proof (filled_columns R fl V E F) as H.
  assert (H2 : nth j (columns K w (ent V)) [] = nth j (map (ncol R) (enum (is_np fl) N)) []) by (rewrite H; auto).
  rewrite columns_nth in H2 by auto.
  rewrite (nth_indep _ [] (ncol R 0)) in H2 by (rewrite map_length; fold (cnt (is_np fl) N); lia).
  rewrite map_nth in H2. rewrite <- (column_nth K (ent V) j i) by auto. rewrite H2.
  rewrite ncol_nth by auto. apply fq_byte. apply norm_range.
Qed.

Lemma filled_step G fl n V : shape K N G -> redm p G -> (n < N)%nat -> cnt (is_np fl) N = w ->
  is_np fl n = true -> filled (ent G) fl n V ->
  okp (lex_minimize p V (cnt (is_np fl) n) G n) (filled (ent G) fl (S n)).
Proof.
  intros HG HR Hn E Hnp (H1 & H2).
  pose proof (cnt_lt (is_np fl) n N Hn Hnp) as L.
  eapply okp_mono. { apply lex_minimize_spec with (w := w); auto; lia. }
  intros V' (V1 & V2). split; auto. intros d Hd Ed.
  apply (list_ext 0). { rewrite column_length, ncol_length; auto. }
  intros i Hi. rewrite column_length in Hi. rewrite column_nth by auto. rewrite ncol_nth by auto.
  pose proof (cnt_lt (is_np fl) d N ltac:(lia) Ed) as L2.
  rewrite V2 by (auto; lia).
  destruct (Nat.eqb_spec (cnt (is_np fl) d) (cnt (is_np fl) n)) as [Ec|Ec].
  - apply cnt_inj in Ec; auto. subst. auto.
  - assert (d <> n) by congruence. rewrite <- (ncol_nth (ent G)) by auto. rewrite <- H2 by (auto; lia).
    rewrite column_nth by auto. auto.
Qed.

Lemma filled_skip R fl n V : is_np fl n = false -> filled R fl n V -> filled R fl (S n) V.
Proof.
  intros E (H1 & H2). split; auto. intros d Hd Ed. apply H2; auto. assert (d <> n) by congruence. lia.
Qed.

Lemma nth_is_np fl n : nth n fl 0 =? 0 = is_np fl n.
Proof. reflexivity. Qed.

(** *** LESS.c:269-279 *)
Lemma verify_normalize_spec V G fl : shape K w V -> shape K N G -> redm p G -> length fl = N ->
  cnt (is_np fl) N = w ->
  okp (verify_normalize p V G fl) (filled (ent G) fl N).
Proof.
  intros HV HG HR HF E. unfold verify_normalize.
  eapply okp_bind with (Q := fun s => filled (ent G) fl N (fst s)).
  - eapply okp_mono. eapply okp_for with (I := fun n s => snd s = Z.of_nat (cnt (is_np fl) n) /\ filled (ent G) fl n (fst s)).
    + split; auto. split; auto. intros; lia.
    + intros n [V1 pl] Hn (H1 & H2). cbn [fst snd] in *. subst pl.
      rewrite (get_ok _ n 0) by lia. cbn [bind]. rewrite nth_is_np.
      destruct (is_np fl n) eqn:Enp.
      * rewrite Nat2Z.id. eapply okp_bind. { apply filled_step; eauto; lia. }
        intros V2 H3. apply okp_ok. cbn [fst snd]. split; auto. rewrite cnt_S, Enp.
        pose proof (cnt_le (is_np fl) n). rewrite pos_t_id by (auto; lia). lia.
      * apply okp_ok. cbn [fst snd]. split. { rewrite cnt_S, Enp. f_equal. lia. }
        apply filled_skip; auto.
    + intros s [_ H]. exact H.
  - intros [V1 pl] H. apply okp_ok. exact H.
Qed.

Lemma digest_of_filled R fl V : cnt (is_np fl) N = w -> filled R fl N V ->
  okp (lex_sort_cols p V) (is_digest R fl).
Proof.
  intros E F. eapply okp_mono. { apply lex_sort_cols_spec; auto. apply F. eapply filled_bytm; eauto. }
  intros V' (H1 & H2 & H3 & H4). split; auto. split; auto. split; auto.
  rewrite <- (filled_columns R fl V); auto.
Qed.

(** *** prepare_digest_input *)
Lemma prepare_digest_input_spec V Qb G Q : shape K w V -> act_mem p Qb -> shape K N G -> redm p G ->
  full_rank K N (ent G) -> mono_ok p Q ->
  okp (prepare_digest_input p V Qb G Q) (fun '(V', Qb') =>
    act_ok p Qb' /\
    exists M R pv fl,
      (forall i s, (i < K)%nat -> (s < N)%nat -> M i (pf (m_perm Q) s) == nthZ (m_coef Q) s * ent G i s) /\
      row_equiv K N M R /\ (forall i j, (i < K)%nat -> (j < N)%nat -> fq (R i j)) /\
      is_rref K N R pv /\ flags_of K N pv fl /\ is_digest R fl V' /\
      (forall k, (k < K)%nat -> pf (m_perm Q) (pf (a_perm Qb') k) = pv k /\ (pf (a_perm Qb') k < N)%nat /\
         nthZ (a_coef Qb') k = nthZ (m_coef Q) (pf (a_perm Qb') k))).
Proof.
  intros HV [Q1 Q2] HG HR HFR HQ. pose proof (wf_K p wf) as HK. unfold prepare_digest_input.
  assert (HS0 : shape K N (repeat (repeat 0 N) K)).
  { split. apply repeat_length. apply Forall_forall. intros x Hx. apply repeat_spec in Hx. subst. apply repeat_length. }
  eapply okp_bind. { apply generator_monomial_mul_spec; eauto. }
  intros G1 (G1a & G1b & G1c).
  pose proof (perm_list_bij N _ (mo_perm p Q HQ)) as BJ.
  eapply okp_bind. { apply generator_RREF_spec; auto. lia. }
  intros [[ret Gd] fl] (Gd1 & Gd2 & Gd3 & Gd4).
  (* G1 has full rank *)
  assert (FR1 : full_rank K N (ent G1)).
  { intros a Ha. apply HFR. intros j Hj.
    assert (E : nthZ (m_coef Q) j * sumn K (fun i => a i * ent G i j) == 0).
    { rewrite <- (Ha (pf (m_perm Q) j)) by (apply BJ; auto). rewrite <- sumn_scal. apply sumn_cong.
      intros i Hi. rewrite G1c by auto. rewrite !Z.mul_assoc, (Z.mul_comm (a i)). reflexivity. }
    apply cong_mul0 in E; auto. apply fq_unit_nz. eapply mono_coef; eauto. }
  destruct Gd4 as [(-> & pv & RR & FL)|(_ & C)]; [|contradiction].
  pose proof (flags_cnt_np K N (ent Gd) pv fl RR FL) as Enp.
  destruct (flags_cnt_pv K N (ent Gd) pv fl RR FL) as [Epv Epv2].
  pose proof FL as (Lfl & _).
  eapply okp_bind with (Q := fun s => let '(V', Qb', _, _) := s in
      filled (ent Gd) fl N V' /\ act_mem p Qb' /\
      forall s, (s < N)%nat -> is_pv fl (pf (m_perm Q) s) = true ->
        nthZ (a_perm Qb') (cnt (is_pv fl) (pf (m_perm Q) s)) = Z.of_nat s /\
        nthZ (a_coef Qb') (cnt (is_pv fl) (pf (m_perm Q) s)) = nthZ (m_coef Q) s).
  - eapply okp_mono. eapply okp_for with (I := fun n s => let '(V', Qb', pi, npi) := s in
      filled (ent Gd) fl n V' /\ act_mem p Qb' /\
      pi = Z.of_nat (cnt (is_pv fl) n) /\ npi = Z.of_nat (K + cnt (is_np fl) n) /\
      forall s, (s < N)%nat -> (pf (m_perm Q) s < n)%nat -> is_pv fl (pf (m_perm Q) s) = true ->
        nthZ (a_perm Qb') (cnt (is_pv fl) (pf (m_perm Q) s)) = Z.of_nat s /\
        nthZ (a_coef Qb') (cnt (is_pv fl) (pf (m_perm Q) s)) = nthZ (m_coef Q) s).
    + split. { split; auto. intros; lia. } split. { split; auto. } rewrite !cnt_0.
      split; auto. split. { rewrite pos_t_id by (auto; lia). lia. } intros; lia.
    + intros n [[[V1 Qb1] pi] npi] Hn (I1 & (I2a & I2b) & -> & -> & I5).
      destruct (bij_surj N _ BJ n ltac:(lia)) as (s & Hs & Es).
      rewrite <- Es at 1. rewrite extract_col_spec by auto. cbn [bind].
      rewrite (get_ok _ n 0) by lia. cbn [bind]. rewrite nth_is_np.
      pose proof (cnt_le (is_np fl) n) as Cn. pose proof (cnt_le (is_pv fl) n) as Cp.
      pose proof (cnt_mono (is_np fl) n N ltac:(lia)) as Mn.
      destruct (is_np fl n) eqn:Enp1.
      * assert (Epv1 : is_pv fl n = false). { rewrite is_np_pv in Enp1. apply negb_true_iff; auto. }
        replace (Z.to_nat (pos_t p (Z.of_nat (K + cnt (is_np fl) n) - Z.of_nat K))) with (cnt (is_np fl) n).
        2:{ rewrite pos_t_id by (auto; lia). lia. }
        eapply okp_bind. { apply filled_step; eauto; lia. }
        intros V2 H3. pose proof (cnt_lt (is_np fl) n N ltac:(lia) Enp1).
        apply okp_ok. split; auto. split. { split; auto. } rewrite !cnt_S, Enp1, Epv1.
        split. { lia. } split. { rewrite pos_t_id by (auto; lia). lia. }
        intros s' Hs' Hl Ep. apply I5; auto. assert (pf (m_perm Q) s' <> n) by congruence. lia.
      * assert (Epv1 : is_pv fl n = true). { rewrite is_np_pv in Enp1. apply negb_false_iff; auto. }
        pose proof (cnt_lt (is_pv fl) n N ltac:(lia) Epv1) as Lp.
        rewrite Nat2Z.id. rewrite set_ok by lia. cbn [bind]. rewrite set_ok by lia. cbn [bind].
        pose proof (mono_coef p Q s HQ Hs) as Cs.
        apply okp_ok. split. { apply filled_skip; auto. }
        split. { split; cbn [a_perm a_coef]; rewrite upd_length; auto. }
        rewrite !cnt_S, Enp1, Epv1.
        split. { rewrite pos_t_id by (auto; lia). lia. } split. { lia. }
        cbn [a_perm a_coef]. intros s' Hs' Hl Ep. unfold nthZ at 1 2. rewrite !nth_upd by lia.
        destruct (Nat.eqb_spec (cnt (is_pv fl) n) (cnt (is_pv fl) (pf (m_perm Q) s'))) as [Ec|Ec].
        -- apply cnt_inj in Ec; auto. assert (s' = s). { apply BJ; auto. congruence. } subst s'. split; auto.
           apply u8_id. unfold fq_unit in Cs. lia.
        -- apply I5; auto. assert (pf (m_perm Q) s' <> n) by congruence. lia.
    + intros [[[V1 Qb1] pi] npi] (I1 & I2 & I3 & I4 & I5). split; auto. split; auto.
      intros s Hs Ep. apply I5; auto. apply BJ. auto.
  - intros [[[V1 Qb1] pi] npi] (F1 & F2 & F3).
    eapply okp_bind. { apply digest_of_filled; eauto. }
    intros V2 HD. apply okp_ok.
    (* the k-th entry comes from pivot k *)
    assert (PK : forall k, (k < K)%nat -> exists s, (s < N)%nat /\ pf (m_perm Q) s = pv k /\
       nthZ (a_perm Qb1) k = Z.of_nat s /\ nthZ (a_coef Qb1) k = nthZ (m_coef Q) s).
    { intros k Hk. pose proof RR as (R1 & _ & _ & _). destruct (bij_surj N _ BJ (pv k) (R1 k Hk)) as (s & Hs & Es).
      exists s. split; auto. split; auto.
      destruct (F3 s Hs) as [A B]. { rewrite Es. apply (flags_pv K N pv fl); eauto. }
      rewrite Es in A, B. rewrite Epv2 in A, B by auto. auto. }
    split; [constructor|].
    + auto.
    + intros k Hk. destruct (PK k Hk) as (s & Hs & E1 & -> & E3). lia.
    + intros k k' Hk Hk' E. destruct (PK k Hk) as (s & Hs & E1 & E2 & E3).
      destruct (PK k' Hk') as (s' & Hs' & E1' & E2' & E3'). assert (s = s') by lia. subst s'.
      assert (pv k = pv k') by congruence. destruct RR as (_ & R2 & _ & _).
      destruct (Nat.lt_trichotomy k k') as [L|[L|L]]; auto.
      * specialize (R2 k k' L Hk'). lia.
      * specialize (R2 k' k L Hk). lia.
    + intros k Hk. destruct (PK k Hk) as (s & Hs & E1 & E2 & ->). eapply mono_coef; eauto.
    + exists (ent G1), (ent Gd), pv, fl. split; auto. split; auto. split; auto. split; auto. split; auto. split; auto.
      intros k Hk. destruct (PK k Hk) as (s & Hs & E1 & E2 & E3).
      assert (Ep : pf (a_perm Qb1) k = s). { unfold pf. rewrite E2. apply Nat2Z.id. }
      rewrite Ep. auto.
Qed.

(** *** apply_action_to_G *)
Definition marked (a : action) (n c : nat) : bool :=
  existsb (fun k => Nat.eqb (pf (a_perm a) k) c) (seq 0 n).

Lemma marked_spec a n c : marked a n c = true <-> exists k, (k < n)%nat /\ pf (a_perm a) k = c.
Proof.
  unfold marked. rewrite existsb_exists. split.
  - intros (k & H1 & H2). apply in_seq in H1. apply Nat.eqb_eq in H2. exists k. split; auto. lia.
  - intros (k & H1 & H2). exists k. split. { apply in_seq. lia. } apply Nat.eqb_eq. auto.
Qed.

Lemma cnt_marked a : act_ok p a -> cnt (fun c => negb (marked a K c)) N = w.
Proof.
  intros [A1 A2 A3 A4].
  assert (E : cnt (marked a K) N = K).
  { unfold cnt. assert (P : Permutation (enum (marked a K) N) (map (pf (a_perm a)) (seq 0 K))).
    { apply NoDup_Permutation.
      - apply NoDup_enum.
      - assert (G : forall l, NoDup l -> (forall x, In x l -> (x < K)%nat) -> NoDup (map (pf (a_perm a)) l)).
        { induction l as [|x l IH]; simpl; intros ND H; constructor.
          - intros I. apply in_map_iff in I. destruct I as (b & E & I).
            assert (b = x). { apply A3; auto. pose proof (A2 b (H b (or_intror I))). pose proof (A2 x (H x (or_introl eq_refl))).
              unfold pf in E. lia. }
            subst. inversion ND; auto.
          - apply IH; auto. inversion ND; auto. }
        apply G. apply seq_NoDup. intros x Hx. apply in_seq in Hx. lia.
      - intros c. rewrite in_enum, in_map_iff, marked_spec. split.
        + intros [Hc (k & Hk & E)]. exists k. split; auto. apply in_seq. lia.
        + intros (k & <- & Hk). apply in_seq in Hk. split. { unfold pf. specialize (A2 k). lia. }
          exists k. split; auto. lia. }
    rewrite (Permutation_length P), map_length, seq_length. auto. }
  pose proof (cnt_compl (marked a K) N). lia.
Qed.

(** Source column of column [k] of the result. *)
Definition act_src (a : action) (k : nat) : nat :=
  if (k <? K)%nat then pf (a_perm a) k
  else nth (k - K) (enum (fun c => negb (marked a K c)) N) 0%nat.

Lemma act_src_bij a : act_ok p a -> bij N (act_src a).
Proof.
  intros HA. pose proof (cnt_marked a HA) as E. pose proof HA as [A1 A2 A3 A4]. pose proof (wf_K p wf).
  assert (T : forall k, (K <= k < N)%nat -> (nth (k - K) (enum (fun c => negb (marked a K c)) N) 0 < N)%nat /\
    negb (marked a K (nth (k - K) (enum (fun c => negb (marked a K c)) N) 0%nat)) = true /\
    cnt (fun c => negb (marked a K c)) (nth (k - K) (enum (fun c => negb (marked a K c)) N) 0%nat) = (k - K)%nat).
  { intros k Hk. apply (cnt_nth_enum (fun c => negb (marked a K c)) N (k - K) 0%nat). lia. }
  split.
  - intros k Hk. unfold act_src. destruct (Nat.ltb_spec k K).
    + unfold pf. specialize (A2 k). lia.
    + apply T. lia.
  - intros k k' Hk Hk' Eq. unfold act_src in Eq. destruct (Nat.ltb_spec k K), (Nat.ltb_spec k' K).
    + apply A3; auto. pose proof (A2 k). pose proof (A2 k'). unfold pf in Eq. lia.
    + exfalso. destruct (T k' ltac:(lia)) as (_ & M & _). rewrite <- Eq in M.
      apply negb_true_iff in M. assert (M' : marked a K (pf (a_perm a) k) = true) by (apply marked_spec; eauto). congruence.
    + exfalso. destruct (T k ltac:(lia)) as (_ & M & _). rewrite Eq in M.
      apply negb_true_iff in M. assert (M' : marked a K (pf (a_perm a) k') = true) by (apply marked_spec; eauto). congruence.
    + destruct (T k ltac:(lia)) as (_ & _ & C1). destruct (T k' ltac:(lia)) as (_ & _ & C2).
      rewrite Eq in C1. lia.
Qed.

Lemma apply_action_to_G_spec r G a : shape K N r -> shape K N G -> redm p G -> act_ok p a ->
  okp (apply_action_to_G p r G a) (fun r' => shape K N r' /\ redm p r' /\
    forall i k, (i < K)%nat -> (k < N)%nat ->
      ent r' i k == (if (k <? K)%nat then nthZ (a_coef a) k else 1) * ent G i (act_src a k)).
Proof.
  intros Hr HG HR HA. pose proof (cnt_marked a HA) as Em. pose proof HA as [[A1 A1'] A2 A3 A4].
  pose proof (wf_K p wf) as HK. unfold apply_action_to_G.
  assert (PR : forall k, (k < K)%nat -> (pf (a_perm a) k < N)%nat).
  { intros k Hk. unfold pf. specialize (A2 k Hk). lia. }
  eapply okp_bind with (Q := fun '(r', fl) => shape K N r' /\ length fl = N /\
    (forall c, (c < N)%nat -> nth c fl 0 = b2z (marked a K c)) /\
    forall i k, (i < K)%nat -> (k < K)%nat -> ent r' i k = fq_red (ent G i (pf (a_perm a) k) * nthZ (a_coef a) k)).
  - eapply okp_for with (I := fun n '(r', fl) => shape K N r' /\ length fl = N /\
    (forall c, (c < N)%nat -> nth c fl 0 = b2z (marked a n c)) /\
    forall i k, (i < K)%nat -> (k < n)%nat -> ent r' i k = fq_red (ent G i (pf (a_perm a) k) * nthZ (a_coef a) k)).
    + split; auto. split. { apply repeat_length. } split. { intros; apply nth_repeat. } intros; lia.
    + intros n [r1 fl] Hn (H1 & H2 & H3 & H4). specialize (PR n ltac:(lia)).
      rewrite (get_ok _ n 0) by lia. cbn [bind]. fold (nthZ (a_perm a) n). fold (pf (a_perm a) n).
      eapply okp_bind with (Q := fun r' => shape K N r' /\
        (forall i, (i < K)%nat -> ent r' i n = fq_red (ent G i (pf (a_perm a) n) * nthZ (a_coef a) n)) /\
        forall i k, (i < K)%nat -> (k < n)%nat -> ent r' i k = fq_red (ent G i (pf (a_perm a) k) * nthZ (a_coef a) k)).
      * eapply okp_for with (I := fun m r' => shape K N r' /\
        (forall i, (i < m)%nat -> ent r' i n = fq_red (ent G i (pf (a_perm a) n) * nthZ (a_coef a) n)) /\
        forall i k, (i < K)%nat -> (k < n)%nat -> ent r' i k = fq_red (ent G i (pf (a_perm a) k) * nthZ (a_coef a) k)).
        -- split; auto. split; auto. intros; lia.
        -- intros m r2 Hm (I1 & I2 & I3).
           rewrite (get2_ok _ K N) by (auto; lia). cbn [bind].
           rewrite (get_ok _ n 0) by lia. cbn [bind]. rewrite (set2_ok _ K N) by (auto; lia).
           apply okp_ok. split. { apply shape_upd2; auto; lia. } split.
           ++ intros i Hi. rewrite (ent_upd2 _ K N) by (auto; lia). rewrite Nat.eqb_refl, andb_true_r.
              destruct (Nat.eqb_spec m i); subst; auto. apply I2. lia.
           ++ intros i k Hi Hk. rewrite (ent_upd2 _ K N) by (auto; lia).
              destruct (Nat.eqb_spec n k); [lia|]. rewrite andb_false_r. auto.
      * intros r2 (I1 & I2 & I3). rewrite set_ok by lia. cbn [bind]. apply okp_ok.
        split; auto. split. { rewrite upd_length; auto. } split.
        -- intros c Hc. rewrite nth_upd by lia. rewrite H3 by auto. unfold marked.
           rewrite seq_S, existsb_app. cbn [existsb]. rewrite orb_false_r.
           cbn [Nat.add]. destruct (Nat.eqb_spec (pf (a_perm a) n) c).
           ++ rewrite orb_true_r. reflexivity.
           ++ rewrite orb_false_r. reflexivity.
        -- intros i k Hi Hk. destruct (Nat.eq_dec k n); subst; auto. apply I3; auto; lia.
  - intros [r1 fl] (H1 & H2 & H3 & H4).
    set (um := fun c => negb (marked a K c)) in *.
    eapply okp_bind with (Q := fun s => shape K N (fst s) /\
      (forall i k, (i < K)%nat -> (k < K)%nat -> ent (fst s) i k = fq_red (ent G i (pf (a_perm a) k) * nthZ (a_coef a) k)) /\
      (forall i d, (i < K)%nat -> (d < N)%nat -> um d = true -> ent (fst s) i (K + cnt um d) = ent G i d)).
    + eapply okp_mono. eapply okp_for with (I := fun n s => shape K N (fst s) /\ snd s = (K + cnt um n)%nat /\
      (forall i k, (i < K)%nat -> (k < K)%nat -> ent (fst s) i k = fq_red (ent G i (pf (a_perm a) k) * nthZ (a_coef a) k)) /\
      (forall i d, (i < K)%nat -> (d < n)%nat -> um d = true -> ent (fst s) i (K + cnt um d) = ent G i d)).
      * split; auto. split. { cbn [snd]. rewrite cnt_0. lia. } split; auto. intros; lia.
      * intros n [r2 dst] Hn (I1 & I2 & I3 & I4). cbn [fst snd] in *. subst dst.
        rewrite (get_ok _ n 0) by lia. cbn [bind]. rewrite H3 by lia.
        destruct (marked a K n) eqn:Emk; cbn [b2z].
        -- apply okp_ok. cbn [fst snd]. split; auto.
           assert (un : um n = false) by (unfold um; rewrite Emk; auto).
           rewrite cnt_S, un. split; [lia|]. split; auto. intros i d Hi Hd Ed. apply I4; auto.
           assert (d <> n) by congruence. lia.
        -- assert (un : um n = true) by (unfold um; rewrite Emk; auto).
           pose proof (cnt_lt um n N ltac:(lia) un) as Lc.
           rewrite Z.eqb_refl.
           eapply okp_bind with (Q := fun r' => shape K N r' /\
             forall i j, (i < K)%nat -> (j < N)%nat -> ent r' i j = if Nat.eqb j (K + cnt um n) then ent G i n else ent r2 i j).
           ++ eapply okp_mono. eapply okp_for with (I := fun m r' => shape K N r' /\
               forall i j, (i < K)%nat -> (j < N)%nat -> ent r' i j =
                 if Nat.eqb j (K + cnt um n) && (i <? m)%nat then ent G i n else ent r2 i j).
              ** split; auto. intros. rewrite andb_false_r. auto.
              ** intros m r3 Hm (J1 & J2). rewrite (get2_ok _ K N) by (auto; lia). cbn [bind].
                 rewrite (set2_ok _ K N) by (auto; lia). apply okp_ok. split. { apply shape_upd2; auto; lia. }
                 intros i j Hi Hj. rewrite (ent_upd2 _ K N) by (auto; lia). rewrite J2 by auto.
                 destruct (Nat.eqb_spec m i), (Nat.eqb_spec (K + cnt um n) j), (Nat.eqb_spec j (K + cnt um n)),
                   (Nat.ltb_spec i m), (Nat.ltb_spec i (S m)); subst; simpl; auto; try lia.
              ** intros r3 (J1 & J2). split; auto. intros i j Hi Hj. rewrite J2 by auto.
                 destruct (Nat.ltb_spec i (0 + K)); [|lia]. rewrite andb_true_r. auto.
           ++ intros r3 (J1 & J2). apply okp_ok. cbn [fst snd]. split; auto. rewrite cnt_S, un.
              split; [lia|]. split.
              ** intros i k Hi Hk. rewrite J2 by (auto; lia). destruct (Nat.eqb_spec k (K + cnt um n)); [lia|]. auto.
              ** intros i d Hi Hd Ed. pose proof (cnt_lt um d N ltac:(lia) Ed).
                 rewrite J2 by (auto; lia). destruct (Nat.eqb_spec (K + cnt um d) (K + cnt um n)).
                 --- assert (d = n) by (apply (cnt_inj um); auto; lia). subst; auto.
                 --- apply I4; auto. assert (d <> n) by congruence. lia.
      * intros s (I1 & I2 & I3 & I4). auto.
    + intros [r2 dst] (I1 & I2 & I3). cbn [fst snd] in *. apply okp_ok. split; auto.
      assert (V : forall i k, (i < K)%nat -> (k < N)%nat -> ent r2 i k =
         if (k <? K)%nat then fq_red (ent G i (act_src a k) * nthZ (a_coef a) k) else ent G i (act_src a k)).
      { intros i k Hi Hk. unfold act_src. destruct (Nat.ltb_spec k K). { apply I2; auto. }
        destruct (cnt_nth_enum um N (k - K) 0%nat) as (T1 & T2 & T3); [lia|].
        fold um. rewrite <- (I3 i (nth (k - K) (enum um N) 0%nat)) by auto. rewrite T3. f_equal. lia. }
      pose proof (act_src_bij a HA) as [SB _].
      split.
      * intros i k Hi Hk. rewrite V by auto. destruct (k <? K)%nat; auto with fq.
      * intros i k Hi Hk. rewrite V by auto. destruct (Nat.ltb_spec k K).
        -- rewrite fq_red_mul; auto with fq. rewrite Z.mul_comm. reflexivity.
        -- rewrite Z.mul_1_l. reflexivity.
Qed.

(** *** The key fact: both parties compute the same digest input. *)

Lemma row_equiv_scal M c : ~ c == 0 -> row_equiv K N M (fun i j => c * M i j).
Proof.
  intros Hc.
  assert (E : forall d A B, ~ d == 0 -> (forall i j, (i < K)%nat -> (j < N)%nat -> B i j == d * A i j) -> row_sub K N B A).
  { intros d A B Hd H. exists (fun a i => d * a i). split.
    - intros a j Hj. apply sumn_cong. intros i Hi. rewrite H by auto.
      rewrite Z.mul_assoc, (Z.mul_comm (a i)). reflexivity.
    - intros a Ha i Hi. apply (cong_mul0 d); auto. }
  split. { apply (E c); auto. reflexivity. }
  destruct (cong_inv c Hc) as (d & _ & Hd). apply (E d). { apply cong_unit_nz with (b := c); auto. }
  intros i j _ _. rewrite Z.mul_assoc, Hd, Z.mul_1_l. reflexivity.
Qed.

Lemma digest_same M1 R1 pv1 fl1 M2 R2 pv2 fl2 g e lam :
  row_equiv K N M1 R1 -> is_rref K N R1 pv1 -> flags_of K N pv1 fl1 ->
  (forall i j, (i < K)%nat -> (j < N)%nat -> fq (R1 i j)) ->
  row_equiv K N M2 R2 -> is_rref K N R2 pv2 -> flags_of K N pv2 fl2 ->
  (forall i j, (i < K)%nat -> (j < N)%nat -> fq (R2 i j)) ->
  bij N g -> (forall a, (a < N)%nat -> ~ e a == 0) ->
  row_equiv K N (fun i a => e a * M1 i (g a)) M2 ->
  ~ lam == 0 -> (forall a, (a < K)%nat -> g a = pv1 a /\ e a == lam) ->
  Permutation (map (ncol R1) (enum (is_np fl1) N)) (map (ncol R2) (enum (is_np fl2) N)).
Proof.
  intros E1 RR1 F1 Q1 E2 RR2 F2 Q2 Bg He EM Hl Ha. pose proof (wf_K p wf) as HK.
  destruct (cong_inv lam Hl) as (lam' & _ & Hl').
  assert (Hlam' : ~ lam' == 0) by (apply cong_unit_nz with (b := lam); auto).
  set (RR := fun i a => (lam' * (e a * R1 i (g a))) mod 127).
  assert (CR : forall i a, RR i a == lam' * (e a * R1 i (g a))) by (intros; apply cong_mod).
  assert (S : same_code K N RR R2).
  { apply row_equiv_same_code.
    eapply row_equiv_trans; [apply row_equiv_cong; intros i j _ _; apply CR|].
    eapply row_equiv_trans; [apply row_equiv_sym; apply row_equiv_scal with (M := fun i a => e a * R1 i (g a)); auto|].
    eapply row_equiv_trans; [|exact E2]. eapply row_equiv_trans; [|exact EM].
    apply row_equiv_cols. { apply Bg. } apply row_equiv_sym; auto. }
  pose proof RR1 as (P1 & P2 & P3 & P4).
  assert (IR : is_rref K N RR (fun i => i)).
  { assert (U : forall i j, (i < K)%nat -> (j < K)%nat -> RR i j = if Nat.eqb i j then 1 else 0).
    { intros i j Hi Hj. destruct (Ha j Hj) as [G1 G2]. apply cong_eq.
      - apply fq_mod.
      - destruct (Nat.eqb i j); auto with fq.
      - rewrite CR. rewrite G1, G2. rewrite Z.mul_assoc, Hl', Z.mul_1_l. rewrite P3 by auto. reflexivity. }
    split; [|split; [|split]]; auto.
    - intros; lia.
    - intros i c Hi Hc. rewrite U by lia. destruct (Nat.eqb_spec i c); auto; lia. }
  destruct (rref_unique K N RR R2 (fun i => i) pv2 S IR RR2) as [Epv ER].
  (* normalised columns of R2 at K.. are those of R1 at g *)
  assert (NC : forall a, (a < N)%nat -> ncol R2 a = ncol R1 (g a)).
  { intros a Hna. unfold ncol. apply map_ext_in. intros i Hi. apply in_seq in Hi.
    apply norm_scale with (e := lam' * e a); try lia.
    - intros j Hj. apply Q1; auto. apply Bg; auto.
    - intros j Hj. apply Q2; auto.
    - apply cong_nonzero_mul; auto.
    - intros j Hj. rewrite <- ER by auto. rewrite CR. rewrite Z.mul_assoc. reflexivity. }
  rewrite (map_ext_in (ncol R2) (fun a => ncol R1 (g a))).
  2:{ intros a Hin. apply in_enum in Hin. apply NC. apply Hin. }
  rewrite <- (map_map g (ncol R1)). apply Permutation_map. apply Permutation_sym.
  apply NoDup_Permutation_bis.
  - assert (G : forall l, NoDup l -> (forall x, In x l -> (x < N)%nat) -> NoDup (map g l)).
    { induction l as [|x l IH]; simpl; intros ND H; constructor.
      - intros I. apply in_map_iff in I. destruct I as (b & Eb & I).
        assert (b = x) by (apply Bg; auto). subst. inversion ND; auto.
      - apply IH; auto. inversion ND; auto. }
    apply G. apply NoDup_enum. intros x Hx. apply in_enum in Hx. apply Hx.
  - rewrite map_length. fold (cnt (is_np fl1) N). fold (cnt (is_np fl2) N).
    rewrite (flags_cnt_np K N R1 pv1 fl1), (flags_cnt_np K N R2 pv2 fl2); auto.
  - intros c Hc. apply in_map_iff in Hc. destruct Hc as (a & <- & Hin). apply in_enum in Hin.
    destruct Hin as [Hna Hnp]. apply in_enum. split. { apply Bg; auto. }
    apply (flags_np K N pv1 fl1); auto. { apply Bg; auto. }
    intros k Hk Ek. apply (flags_np K N pv2 fl2) with (i := k) in Hnp; auto.
    apply Hnp. rewrite <- Epv by auto. destruct (Ha k Hk) as [G1 _].
    assert (k = a); [|lia]. apply Bg; auto; lia.
Qed.

End R.
