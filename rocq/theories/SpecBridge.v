(** The relations of LessSpec.v are functional, and the objects of the model (trees, packed forms,
    commitments, responses) satisfy them. *)
From Coq Require Import Sorted Permutation.
From Verif Require Import Base BaseLemmas Params ParamsProofs Fq FqProofs Prim Samplers Monomial Codes SeedTree Utils Less Spec
  EnumProofs LinAlg BitCodec CodecProofs RrefCodec LayoutProofs RrefProofs MonoProofs ActionProofs CanonProofs SamplerProofs SeedTreeProofs
  FuelProofs SampleSpec RoundProofs VerifyProofs SignerProofs AnyKeyProofs PropCanon PropScheme ScriptRun DetProofs LessSpec SpecSampling.

(** *** Choosing *)
Lemma list_choice {A} (d : A) n (P : nat -> A -> Prop) : (forall t, (t < n)%nat -> exists a, P t a) ->
  exists l, length l = n /\ forall t, (t < n)%nat -> P t (nth t l d).
Proof.
  induction n as [|n IH]; intros H. { exists []. split; auto. intros; lia. }
  destruct IH as (l & L & HP). { intros t Ht. apply H. lia. } destruct (H n ltac:(lia)) as (a & Ha).
  exists (l ++ [a]). split. { rewrite app_length; cbn [length]; lia. }
  intros t Ht. destruct (Nat.eq_dec t n) as [->|].
  - rewrite app_nth2 by lia. rewrite L, Nat.sub_diag. exact Ha.
  - rewrite app_nth1 by lia. apply HP. lia.
Qed.

Lemma fuel_choice n (P : nat -> nat -> Prop) : (forall t f f', (f <= f')%nat -> P t f -> P t f') ->
  (forall t, (t < n)%nat -> exists f, P t f) -> exists f, forall t, (t < n)%nat -> P t f.
Proof.
  intros M. induction n as [|n IH]; intros H. { exists 0%nat. intros; lia. }
  destruct IH as (f & Hf). { intros t Ht. apply H. lia. } destruct (H n ltac:(lia)) as (g & Hg).
  exists (max f g). intros t Ht. destruct (Nat.eq_dec t n) as [->|].
  - apply (M n g); [lia|auto].
  - apply (M t f); [lia|]. apply Hf. lia.
Qed.

Lemma sorted_lt_unique (l l' : list nat) : StronglySorted lt l -> StronglySorted lt l' -> (forall x, In x l <-> In x l') -> l = l'.
Proof.
  intros H. revert l'. induction H as [|a l H IH HF]; intros l' H' E.
  - destruct l' as [|b l']; auto. destruct (proj2 (E b)); left; auto.
  - inversion H' as [|b l2 H2 HF2]; subst. { destruct (proj1 (E a)); left; auto. }
    rewrite Forall_forall in HF, HF2.
    assert (a = b).
    { destruct (proj1 (E a) (or_introl eq_refl)) as [->|I1]; auto. destruct (proj2 (E b) (or_introl eq_refl)) as [->|I2]; auto.
      specialize (HF _ I2). specialize (HF2 _ I1). lia. }
    subst b. f_equal. apply IH; auto. intros x. specialize (E x). split; intros I.
    + destruct (proj1 E (or_intror I)) as [->|]; auto. specialize (HF _ I). lia.
    + destruct (proj2 E (or_intror I)) as [->|]; auto. specialize (HF2 _ I). lia.
Qed.

Lemma enum_sorted f n : StronglySorted lt (enum f n).
Proof.
  unfold enum. assert (G : forall l, StronglySorted lt l -> StronglySorted lt (filter f l)).
  { induction 1 as [|a l H IH HF]; cbn; [constructor|]. destruct (f a); auto. constructor; auto.
    rewrite Forall_forall in *. intros x Hx. apply filter_In in Hx. apply HF. apply Hx. }
  apply G. generalize 0%nat. induction n; intros s; cbn; constructor; auto.
  apply Forall_forall. intros x Hx. apply in_seq in Hx. lia.
Qed.

Section B.
Variable X : prim.
Variable p : params.
Hypothesis wf : wf_params p.
Hypothesis LX : lawful X (hash_len p).
Notation N := (pN p).
Notation K := (pK p).
Notation w := (pN p - pK p)%nat.
Notation L := (num_leaves p).
Notation nn := (num_nodes p).
Notation slen := (seed_len p).

(** *** Sampling *)
Lemma monomial_of_det input perm coef perm' coef' : monomial_of X p input perm coef -> monomial_of X p input perm' coef' ->
  perm = perm' /\ coef = coef'.
Proof.
  intros (st & H & ->) (st' & H' & ->). destruct (next_samples_det X _ _ _ _ _ _ _ _ H H') as [-> ->]. auto.
Qed.

Lemma monomial_of_sampled input perm coef : monomial_of X p input perm coef ->
  exists f Q, sampled X p f input Q /\ m_perm Q = perm /\ m_coef Q = coef.
Proof. intros H. destruct (monomial_of_expand X p wf LX _ _ _ H) as (f & S). exists f. eexists. split; [exact S|]. auto. Qed.

Lemma monomial_of_ok input perm coef : monomial_of X p input perm coef -> mono_ok p {| m_perm := perm; m_coef := coef |}.
Proof. intros H. destruct (monomial_of_expand X p wf LX _ _ _ H) as (f & S & _). exact S. Qed.

Lemma generator_of_det seed G G' : generator_of X p seed G -> generator_of X p seed G' ->
  forall i j, (i < K)%nat -> (j < N)%nat -> G i j = G' i j.
Proof.
  intros (r & H & E) (r' & H' & E') i j Hi Hj. rewrite E, E' by auto. rewrite (next_rows_det X p _ _ _ _ H H'). auto.
Qed.

Lemma sampledG_up f f' s c M : (f <= f')%nat -> sampledG X p f s c M -> sampledG X p f' s c M.
Proof. intros H (H1 & H2). split; auto. intros g r Hg. apply H1. lia. Qed.

Lemma round_bytes_le t : (t < pT p)%nat -> round_bytes t = le_bytes 2 (Z.of_nat t).
Proof. intros H. unfold round_bytes. rewrite u16_id; auto. pose proof (wf_T p wf). lia. Qed.

(** *** Trees *)
Lemma tree_seed_below salt i s j s' : tree_seed X p salt i s j s' -> below i j.
Proof. induction 1; [constructor|apply below_left|apply below_right]; auto. Qed.

Lemma tree_seed_det salt i s j a b : tree_seed X p salt i s j a -> tree_seed X p salt i s j b -> a = b.
Proof.
  intros H. revert b. induction H as [|j s' H IH|j s' H IH]; intros b H'.
  - inversion H' as [E|j' s2 H2 E|j' s2 H2 E]; auto; subst;
      apply tree_seed_below, below_le in H2; lia.
  - inversion H' as [E|j' s2 H2 E|j' s2 H2 E]; subst.
    + apply tree_seed_below, below_le in H. lia.
    + assert (j' = j) by lia. subst j'. rewrite (IH _ H2). auto.
    + lia.
  - inversion H' as [E|j' s2 H2 E|j' s2 H2 E]; subst.
    + apply tree_seed_below, below_le in H. lia.
    + lia.
    + assert (j' = j) by lia. subst j'. rewrite (IH _ H2). auto.
Qed.

Lemma tree_seed_nth salt tree root : tree_gen X p salt tree -> nth 0 tree [] = root ->
  forall i, (i < nn)%nat -> tree_seed X p salt 0 root i (nth i tree []).
Proof.
  intros HG HR i. induction i as [i IH] using lt_wf_ind. intros Hi. destruct i as [|k]. { rewrite HR. constructor. }
  set (m := (k / 2)%nat).
  assert (Hm : (S k = 2 * m + 1 \/ S k = 2 * m + 2)%nat).
  { pose proof (Nat.div_mod k 2 ltac:(lia)) as DM. pose proof (Nat.mod_upper_bound k 2 ltac:(lia)). unfold m. lia. }
  pose proof (nn_L p). destruct (HG m ltac:(lia)) as [C1 C2]. specialize (IH m ltac:(lia) ltac:(lia)).
  destruct Hm as [-> | ->]; [rewrite C1|rewrite C2]; constructor; exact IH.
Qed.

Lemma published_det chal l l' : published p chal l -> published p chal l' -> l = l'.
Proof. intros (S & H) (S' & H'). apply sorted_lt_unique; auto. intros x. rewrite H, H'. tauto. Qed.

Lemma unchallenged_F chal fl i : challenge_ok p chal -> flags_spec p (to_publish chal) fl -> (i < nn)%nat ->
  (unchallenged p chal i <-> F fl i = false).
Proof.
  intros HC FS Hi. destruct (to_publish_ok p chal HC) as (T1 & T2 & T3). pose proof (proj1 HC) as HL.
  pose proof (F_below p wf (to_publish chal) T1 fl FS i Hi) as FB. split.
  - intros U. destruct (F fl i); auto. destruct (proj1 FB eq_refl) as (t & A1 & A2 & A3). exfalso. apply (U t A1); [|exact A3].
    rewrite to_publish_nth in A2 by lia. unfold nz in A2. destruct (Z.eqb_spec (nth t chal 0) 0); [discriminate|auto].
  - intros FF t Ht Hn B. rewrite FF in FB. enough (false = true) by discriminate. apply FB. exists t. split; auto. split; auto.
    rewrite to_publish_nth by lia. unfold nz. destruct (Z.eqb_spec (nth t chal 0) 0); [contradiction|reflexivity].
Qed.

Lemma published_enum chal fl : challenge_ok p chal -> flags_spec p (to_publish chal) fl -> published p chal (enum (pub fl) nn).
Proof.
  intros HC FS. split; [apply enum_sorted|]. destruct (to_publish_ok p chal HC) as (T1 & T2 & T3).
  pose proof (F_root p wf (to_publish chal) T1 T2 fl FS) as F0. pose proof (wf_W p wf).
  specialize (F0 ltac:(lia)). intros i. rewrite in_enum. split.
  - intros (Hi & HP). apply (pub_spec p (to_publish chal) T1 fl) in HP. destruct HP as (m & Hm & A1 & A2).
    split; auto. split. { apply (unchallenged_F chal fl); auto. }
    intros j B U. apply below_inv in B. destruct B as [->|(m' & B & Hm')]; auto. exfalso.
    assert (m' = m) by lia. subst m'. pose proof (below_le _ _ B).
    apply (unchallenged_F chal fl) in U; auto; [|lia].
    rewrite (F_up p wf (to_publish chal) T1 fl FS j m B) in U; auto; try discriminate. lia.
  - intros (Hi & U & M). split; auto. apply (unchallenged_F chal fl) in U; auto. apply (pub_spec p (to_publish chal) T1 fl).
    destruct i as [|k]; [congruence|].
    set (m := (k / 2)%nat).
    assert (Hm : (S k = 2 * m + 1 \/ S k = 2 * m + 2)%nat).
    { pose proof (Nat.div_mod k 2 ltac:(lia)) as DM. pose proof (Nat.mod_upper_bound k 2 ltac:(lia)). unfold m. lia. }
    exists m. split; auto. split; auto. destruct (F fl m) eqn:E; auto. exfalso.
    assert (m = S k); [|lia]. apply M.
    + destruct Hm as [-> | ->]; [apply below_left|apply below_right]; constructor.
    + apply (unchallenged_F chal fl); auto. lia.
Qed.

Lemma flags_ex chal : challenge_ok p chal -> exists fl, flags_spec p (to_publish chal) fl.
Proof.
  intros HC. destruct (to_publish_ok p chal HC) as (T1 & _). destruct (compute_seeds_spec p wf (to_publish chal) T1) as (fl & _ & F).
  eauto.
Qed.

(** *** Packed forms *)
Lemma packed_action_encodes l a : act_ok p a -> (packed_action p l (a_perm a) (a_coef a) <-> encodes p l a).
Proof.
  intros [A1 A2 A3 A4]. pose proof (N_lt_nb p wf) as NB.
  assert (R : forall old, bytes old -> length old = mono_bytes p ->
    okp (compress_monom_action p old a) (fun b => packed_action p b (a_perm a) (a_coef a))).
  { intros old H1 H2. apply (action_layout p wf old a H1 H2 A1).
    - intros i Hi. specialize (A2 i Hi). lia.
    - intros i Hi. specialize (A4 i Hi). unfold fq_unit in A4. lia. }
  split.
  - intros (P1 & P2 & P3) old H1 H2. destruct (R old H1 H2) as (b & -> & B1 & B2 & B3). f_equal. apply le_val_inj; congruence.
  - intros E. destruct (R _ (zero_bytes (mono_bytes p)) (repeat_length _ _)) as (b & EB & P).
    rewrite (E _ (zero_bytes (mono_bytes p)) (repeat_length _ _)) in EB. injection EB as ->. exact P.
Qed.

Lemma read_action_decodes l rp rc : bytes l -> length l = mono_bytes p ->
  (read_action p l rp rc <-> decodes p l {| a_perm := rp; a_coef := rc |}).
Proof.
  intros HB HL. destruct (decode_any p wf l HB HL) as (a & D). pose proof D as (AM & E).
  destruct (expand_to_monom_action_spec p wf (junk_action p (fun _ _ => 0) 0) l HB HL (junk_action_mem p _ _)) as (a' & E' & B1 & B2 & B3).
  rewrite (E _ (junk_action_mem p _ _)) in E'. injection E' as <-. split.
  - intros (R1 & R2 & R3). assert (a = {| a_perm := rp; a_coef := rc |}) as <-; auto.
    apply (action_ext p); auto. { split; auto. }
    + intros i Hi. rewrite B2 by auto. symmetry. apply R3. auto.
    + intros i Hi. rewrite B3 by auto. symmetry. apply R3. auto.
  - intros D'. pose proof (decodes_det p _ _ _ D D') as ->. destruct B1 as [L1 L2]. split; auto. split; auto.
    intros i Hi. split; [apply B2|apply B3]; auto.
Qed.

Definition pflags (pv : nat -> nat) : list Z := map (fun c => if existsb (fun i => Nat.eqb (pv i) c) (seq 0 K) then 1 else 0) (seq 0 N).

Lemma pflags_ok pv : flags_of K N pv (pflags pv).
Proof.
  split. { unfold pflags. rewrite map_length, seq_length. auto. }
  intros c Hc. unfold pflags. rewrite nth_map_seq by auto. split; intros H.
  - destruct H as (i & Hi & E). replace (existsb _ _) with true; auto. symmetry. apply existsb_exists. exists i.
    split. { apply in_seq. lia. } apply Nat.eqb_eq. auto.
  - destruct (existsb _ _) eqn:E; auto. apply existsb_exists in E. destruct E as (i & Hi & E). apply Nat.eqb_eq in E.
    apply in_seq in Hi. destruct (H i); auto. lia.
Qed.

Lemma packed_matrix_ext l G G' pv pv' : (forall i, (i < K)%nat -> pv i = pv' i) ->
  (forall i j, (i < K)%nat -> (j < N)%nat -> G i j = G' i j) -> is_rref K N G pv -> packed_matrix p l G pv -> packed_matrix p l G' pv'.
Proof.
  intros E1 E2 RR (P1 & P2 & P3). split; auto. split; auto. rewrite P3. f_equal.
  - apply sumn_eq. intros c Hc. f_equal.
    assert (EX : forall l, (forall i, In i l -> (i < K)%nat) -> existsb (fun i => Nat.eqb (pv i) c) l = existsb (fun i => Nat.eqb (pv' i) c) l).
    { induction l0 as [|y l0 IH]; intros H; cbn; auto. rewrite E1 by (apply H; left; auto). f_equal. apply IH. intros; apply H; right; auto. }
    rewrite EX; auto. intros i Hi. apply in_seq in Hi. lia.
  - f_equal. apply sumn_eq. intros i Hi. apply sumn_eq. intros j Hj. f_equal. rewrite (nonpivots_ext K N _ _ E1). apply E2; auto.
    assert (I : In (nth j (nonpivots K N pv') 0%nat) (nonpivots K N pv')).
    { apply nth_In. rewrite <- (nonpivots_ext K N _ _ E1). rewrite (nonpivots_length K N G pv RR). auto. }
    apply in_nonpivots in I. apply I.
Qed.

Lemma packed_matrix_encodes l (G : mat) pv : shape K N G -> reduced K N (ent G) -> is_rref K N (ent G) pv ->
  (packed_matrix p l (ent G) pv <-> encodesG p l G).
Proof.
  intros HS HR HRR.
  assert (R : forall old, bytes old -> length old = rref_bytes p -> okp (compress_rref p old G (pflags pv)) (fun b => packed_matrix p b (ent G) pv)).
  { intros old H1 H2. eapply okp_mono. { apply (rref_layout p wf old G (pflags pv) pv H1 H2 HS HR HRR (pflags_ok pv)). }
    intros b (B1 & B2 & B3). split; auto. split; auto. rewrite B3. f_equal. apply sumn_eq. intros c Hc. f_equal.
    unfold pflags. rewrite nth_map_seq by auto. auto. }
  split.
  - intros (P1 & P2 & P3) old pv' piv' H1 H2 RR' F'.
    destruct (rref_unique K N (ent G) (ent G) pv pv' (row_equiv_same_code _ _ _ _ (row_equiv_refl _ _ _)) HRR RR') as [E1 _].
    rewrite <- (flags_det p _ _ _ _ E1 (pflags_ok pv) F'). destruct (R old H1 H2) as (b & -> & B1 & B2 & B3). f_equal.
    apply le_val_inj; congruence.
  - intros E. destruct (R _ (zero_bytes (rref_bytes p)) (repeat_length _ _)) as (b & EB & P).
    rewrite (E _ _ _ (zero_bytes (rref_bytes p)) (repeat_length _ _) HRR (pflags_ok pv)) in EB. injection EB as ->. exact P.
Qed.

Definition tomat (G : matf) : mat := map (fun i => map (G i) (seq 0 N)) (seq 0 K).

Lemma tomat_shape G : shape K N (tomat G).
Proof.
  split. { unfold tomat. rewrite map_length, seq_length. auto. } apply Forall_forall. intros x Hx. apply in_map_iff in Hx.
  destruct Hx as (i & <- & _). rewrite map_length, seq_length. auto.
Qed.

Lemma tomat_ent G i j : (i < K)%nat -> (j < N)%nat -> ent (tomat G) i j = G i j.
Proof. intros Hi Hj. unfold ent, tomat. rewrite nth_map_seq by auto. rewrite nth_map_seq by auto. auto. Qed.

Lemma is_rref_ext G G' pv : (forall i j, (i < K)%nat -> (j < N)%nat -> G i j = G' i j) -> is_rref K N G pv -> is_rref K N G' pv.
Proof.
  intros E (A1 & A2 & A3 & A4). split; auto. split; auto. split.
  - intros i j Hi Hj. rewrite <- E by auto. auto.
  - intros i c Hi Hc. specialize (A1 i Hi). rewrite <- E by lia. auto.
Qed.

Lemma packed_matrix_decodes l G pv : reduced K N G -> is_rref K N G pv -> packed_matrix p l G pv -> decodesG p l (tomat G).
Proof.
  intros HR RR P.
  assert (E : forall i j, (i < K)%nat -> (j < N)%nat -> G i j = ent (tomat G) i j) by (intros; symmetry; apply tomat_ent; auto).
  assert (RR' : is_rref K N (ent (tomat G)) pv) by (apply (is_rref_ext G); auto).
  assert (HR' : reduced K N (ent (tomat G))). { intros i j Hi Hj. rewrite <- E by auto. auto. }
  assert (P' : packed_matrix p l (ent (tomat G)) pv) by (apply (packed_matrix_ext l G _ pv pv); auto).
  apply packed_matrix_encodes in P'; auto; [|apply tomat_shape].
  destruct (generator_coding p wf _ (tomat G) (pflags pv) pv (zero_bytes (rref_bytes p)) (repeat_length _ _) (tomat_shape G) HR' RR' (pflags_ok pv))
    as (b & EB & B1 & B2 & B3).
  rewrite (P' _ _ _ (zero_bytes (rref_bytes p)) (repeat_length _ _) RR' (pflags_ok pv)) in EB. injection EB as ->. exact B3.
Qed.

(** *** Monomials acting on matrices *)
Lemma times_monomial_det G G' Q M M' : mono_ok p Q -> (forall i j, (i < K)%nat -> (j < N)%nat -> G i j = G' i j) ->
  times_monomial K N G (m_perm Q) (m_coef Q) M -> times_monomial K N G' (m_perm Q) (m_coef Q) M' -> same_code K N M M'.
Proof.
  intros HQ E T T'. apply cong_code. intros i j Hi Hj. destruct (perm_surj p Q j HQ Hj) as (s & Hs & <-).
  specialize (T i s Hi Hs). specialize (T' i s Hi Hs). change (Z.to_nat (nth s (m_perm Q) 0)) with (pf (m_perm Q) s) in *.
  rewrite T, T', E by auto. reflexivity.
Qed.

(** The inverse action: M Q = G determines M. *)
Lemma times_inverse Q G M : mono_ok p Q ->
  (times_monomial K N M (m_perm Q) (m_coef Q) G <->
   forall i j, (i < K)%nat -> (j < N)%nat -> M i j == fq_inv (nthZ (m_coef Q) j) * G i (pf (m_perm Q) j)).
Proof.
  intros HQ. split.
  - intros T i j Hi Hj. specialize (T i j Hi Hj). change (Z.to_nat (nth j (m_perm Q) 0)) with (pf (m_perm Q) j) in T.
    change (nth j (m_coef Q) 0) with (nthZ (m_coef Q) j) in T.
    rewrite T, Z.mul_assoc, (fq_unit_inv_l _ (mono_coef p Q j HQ Hj)), Z.mul_1_l. reflexivity.
  - intros T i j Hi Hj. specialize (T i j Hi Hj). change (Z.to_nat (nth j (m_perm Q) 0)) with (pf (m_perm Q) j).
    change (nth j (m_coef Q) 0) with (nthZ (m_coef Q) j).
    rewrite T, Z.mul_assoc, (Z.mul_comm (nthZ (m_coef Q) j)), (fq_unit_inv_l _ (mono_coef p Q j HQ Hj)), Z.mul_1_l. reflexivity.
Qed.

(** *** Keys *)
Lemma key_component_spec fuel csk G0 pk x : (x < p_nk p - 1)%nat ->
  key_component X p fuel (private_seeds X p (p_nk p - 1) (x_init X csk)) G0 pk x ->
  key_component_of X p csk (ent G0) x (pk_chunk p pk x).
Proof.
  intros Hx (Q & G & SQ & (M & M1 & M2) & DG & (GS & GR & GF) & (pv & RR) & EG). pose proof (proj1 SQ) as HQ.
  exists (m_perm Q), (m_coef Q), M, (ent G), pv. split.
  { unfold private_seed. rewrite <- (private_seeds_nth X p (p_nk p - 1) (x_init X csk) x Hx).
    apply (sampled_monomial_of X p wf LX fuel _ Q). exact SQ. }
  split. { apply times_inverse; auto. } split. { apply row_equiv_same_code. auto. }
  split; auto. split; auto. apply packed_matrix_encodes; auto.
Qed.

Lemma key_component_det csk G G' x c c' : (forall i j, (i < K)%nat -> (j < N)%nat -> G i j = G' i j) ->
  key_component_of X p csk G x c -> key_component_of X p csk G' x c' -> c = c'.
Proof.
  intros EG (pm & cf & M & R & pv & A1 & A2 & A3 & A4 & A5 & A6) (pm' & cf' & M' & R' & pv' & B1 & B2 & B3 & B4 & B5 & B6).
  destruct (monomial_of_det _ _ _ _ _ A1 B1) as [<- <-]. pose proof (monomial_of_ok _ _ _ A1) as HQ.
  assert (SC : same_code K N R R').
  { eapply same_code_trans; [apply same_code_sym; exact A3|]. eapply same_code_trans; [|exact B3]. apply cong_code.
    intros i j Hi Hj. pose proof (proj1 (times_inverse _ _ _ HQ) A2 i j Hi Hj) as T. pose proof (proj1 (times_inverse _ _ _ HQ) B2 i j Hi Hj) as T'.
    rewrite T, T', EG; auto. { reflexivity. } apply (perm_list_bij N _ (mo_perm p _ HQ)). auto. }
  destruct (rref_unique K N R R' pv pv' SC A5 B5) as [E1 E2].
  assert (E : forall i j, (i < K)%nat -> (j < N)%nat -> R i j = R' i j) by (intros; apply cong_eq; auto).
  apply (packed_matrix_ext _ _ _ _ _ E1 E A5) in A6. destruct A6 as (X1 & X2 & X3), B6 as (Y1 & Y2 & Y3).
  apply le_val_inj; congruence.
Qed.

(** *** Commitments and responses *)
Lemma commit_round_spec fuel tree salt root G0 t V a : tree_gen X p salt tree -> nth 0 tree [] = root -> (t < pT p)%nat ->
  commit_round X p fuel tree salt G0 t V a ->
  exists perm coef piv, commitment_of X p salt root (ent G0) t perm coef piv V /\
    mono_ok p {| m_perm := perm; m_coef := coef |} /\ act_ok p a /\
    forall k, (k < K)%nat -> (pf (a_perm a) k < N)%nat /\ nth (pf (a_perm a) k) perm 0 = Z.of_nat (piv k) /\
      nth k (a_coef a) 0 = nth (pf (a_perm a) k) coef 0.
Proof.
  intros HG HR Ht (Q & SQ & HA & M & R & pv & fl & A1 & A2 & A3 & A4 & A5 & A6 & A7). pose proof (proj1 SQ) as HQ.
  exists (m_perm Q), (m_coef Q), pv. pose proof (T_lt_L p wf). pose proof (nn_L p). split; [|split; [|split; [auto|]]].
  - exists (nth (leaf p t) tree []), M, R. split. { apply tree_seed_nth; auto. unfold leaf. lia. }
    split. { rewrite <- round_bytes_le by auto. apply (sampled_monomial_of X p wf LX fuel _ Q). exact SQ. }
    split; [exact A1|]. split. { apply row_equiv_same_code; auto. } split; auto.
    apply (digest_normal_form p M R pv fl); auto.
  - destruct Q; auto.
  - intros k Hk. destruct (A7 k Hk) as (X1 & X2 & X3). split; auto. split; [|exact X3].
    rewrite <- X1. unfold pf at 2. rewrite Z2Nat.id. reflexivity.
    apply (perm_list_range N (m_perm Q)). apply (mo_perm p Q HQ). exact X2.
Qed.

Lemma commitment_det salt root G G' t perm coef piv V perm' coef' piv' V' :
  (forall i j, (i < K)%nat -> (j < N)%nat -> G i j = G' i j) ->
  commitment_of X p salt root G t perm coef piv V -> commitment_of X p salt root G' t perm' coef' piv' V' ->
  perm = perm' /\ coef = coef' /\ V = V' /\ forall k, (k < K)%nat -> piv k = piv' k.
Proof.
  intros EG (s & M & R & A1 & A2 & A3 & A4 & A5 & A6) (s' & M' & R' & B1 & B2 & B3 & B4 & B5 & B6).
  pose proof (tree_seed_det _ _ _ _ _ _ A1 B1) as <-. destruct (monomial_of_det _ _ _ _ _ A2 B2) as [<- <-].
  pose proof (monomial_of_ok _ _ _ A2) as HQ. split; auto. split; auto.
  assert (SM : same_code K N M M') by (apply (times_monomial_det G G' {| m_perm := perm; m_coef := coef |}); auto).
  split. { apply (normal_form_unique K N M M'); auto. }
  apply (rref_unique K N R R'); auto. eapply same_code_trans; [apply same_code_sym; exact A4|]. eapply same_code_trans; [exact SM|exact B4].
Qed.

Lemma response_spec a Q b l perm coef piv : mono_ok p Q -> act_ok p b ->
  (forall k, (k < K)%nat -> (pf (a_perm a) k < N)%nat /\ nth (pf (a_perm a) k) perm 0 = Z.of_nat (piv k) /\
      nth k (a_coef a) 0 = nth (pf (a_perm a) k) coef 0) ->
  resp_rel p 1 a Q b -> encodes p l b -> response_of p perm coef piv (m_perm Q) (m_coef Q) l.
Proof.
  intros HQ HB HA HR HE. exists (a_perm b), (a_coef b). split. { apply packed_action_encodes; auto. }
  pose proof HB as [[B1 B2] B3 B4 B5]. split. { apply Forall_nth_Z. rewrite B2. auto. } split; auto. split; auto.
  intros k Hk. destruct (HA k Hk) as (A1 & A2 & A3). destruct (perm_surj p Q _ HQ A1) as (j & Hj & Ej).
  destruct (HR k j Hk Hj (eq_sym Ej)) as [R1 R2]. exists j, (pf (a_perm a) k). split; auto. split; auto.
  split. { rewrite <- R1. unfold pf. rewrite Z2Nat.id; auto. apply B3. auto. }
  split. { rewrite <- Ej. unfold pf. rewrite Z2Nat.id; auto. apply (perm_list_range N (m_perm Q)); auto. apply (mo_perm p Q HQ). }
  split; auto. rewrite <- A3. rewrite Z.mul_1_l in R2. exact R2.
Qed.

Lemma perm_nth_inj perm s s' : perm_list N perm -> (s < N)%nat -> (s' < N)%nat -> nth s perm 0 = nth s' perm 0 -> s = s'.
Proof. intros HP Hs Hs' E. apply (perm_list_bij N _ HP); auto. unfold pf, nthZ. rewrite E. auto. Qed.

Lemma response_det perm coef piv piv' pb cb l l' : perm_list N perm -> perm_list N pb -> (forall k, (k < K)%nat -> piv k = piv' k) ->
  response_of p perm coef piv pb cb l -> response_of p perm coef piv' pb cb l' -> l = l'.
Proof.
  intros HP HB EP (rp & rc & (A1 & A2 & A3) & A4 & A5 & A6 & A7) (rp' & rc' & (B1 & B2 & B3) & B4 & B5 & B6 & B7).
  assert (E : forall k, (k < K)%nat -> nth k rp 0 = nth k rp' 0 /\ nth k rc 0 = nth k rc' 0).
  { intros k Hk. destruct (A7 k Hk) as (j & s & J1 & S1 & C1 & C2 & C3 & C4). destruct (B7 k Hk) as (j' & s' & J1' & S1' & D1 & D2 & D3 & D4).
    assert (s = s'). { apply (perm_nth_inj perm); auto. rewrite C3, D3, EP; auto. } subst s'.
    assert (j = j'). { apply (perm_nth_inj pb); auto. congruence. } subst j'. split; [congruence|].
    apply cong_eq.
    - apply fq_unit_fq. apply (proj1 (Forall_nth_Z _ _) A4). lia.
    - apply fq_unit_fq. apply (proj1 (Forall_nth_Z _ _) B4). lia.
    - rewrite C4, D4. reflexivity. }
  apply le_val_inj; auto; try congruence. rewrite A3, B3. f_equal; [|f_equal]; apply sumn_eq; intros i Hi; destruct (E i Hi) as [E1 E2]; congruence.
Qed.
End B.
