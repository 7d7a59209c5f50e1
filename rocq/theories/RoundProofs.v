(** One round of the protocol, as computed by signer and verifier. *)
From Coq Require Import Permutation Sorted Setoid Morphisms.
From Verif Require Import Base BaseLemmas Params ParamsProofs Fq FqProofs Sums EnumProofs LinAlg Prim Samplers
  Monomial Codes SeedTree Utils Less RrefProofs LexProofs SortProofs MonoProofs ActionProofs BitCodec CodecProofs
  RrefCodec LayoutProofs SamplerProofs FuelProofs.

(** Correctness up to running out of fuel, the latter allowed when [F]. *)
Definition gp {A} (F : Prop) (m : res A) (P : A -> Prop) : Prop :=
  match m with Ok a => P a | UB => False | NoFuel => F end.

Lemma gp_ok {A} F (a : A) (P : A -> Prop) : P a -> gp F (Ok a) P.
Proof. auto. Qed.
Lemma gp_bind {A B} F (m : res A) (f : A -> res B) (Q : A -> Prop) (P : B -> Prop) :
  gp F m Q -> (forall a, Q a -> gp F (f a) P) -> gp F (bind m f) P.
Proof. destruct m; simpl; auto. Qed.
Lemma gp_mono {A} F (m : res A) (P Q : A -> Prop) : gp F m P -> (forall a, P a -> Q a) -> gp F m Q.
Proof. destruct m; simpl; auto. Qed.
Lemma gp_for {S} F (I : nat -> S -> Prop) n start (body : nat -> S -> res S) s :
  I start s ->
  (forall i s, (start <= i < start + n)%nat -> I i s -> gp F (body i s) (I (Datatypes.S i))) ->
  gp F (for_ n start body s) (I (start + n)%nat).
Proof.
  revert start s. induction n as [|n IH]; intros start s H0 Hs; cbn [for_].
  - rewrite Nat.add_0_r. exact H0.
  - eapply gp_bind. { apply (Hs start s); [lia|exact H0]. }
    intros s' H1. replace (start + Datatypes.S n)%nat with (Datatypes.S start + n)%nat by lia. apply IH; [exact H1|].
    intros i x Hi Hx. apply Hs; [lia|exact Hx].
Qed.
Lemma gp_okp {A} F (m : res A) (P : A -> Prop) : okp m P -> gp F m P.
Proof. intros (a & -> & H). exact H. Qed.
Lemma gp_wp {A} (m : res A) (P : A -> Prop) : gp True m P <-> wp m P.
Proof. destruct m; simpl; tauto. Qed.
Lemma gp_False {A} (m : res A) (P : A -> Prop) : gp False m P <-> okp m P.
Proof.
  destruct m; simpl; split; try tauto; intros H.
  - exists a; auto.
  - destruct H as (b & E & H). injection E as <-. auto.
  - destruct H as (b & E & H). discriminate.
  - destruct H as (b & E & H). discriminate.
Qed.
Lemma wp_gp {A} (F : Prop) (m : res A) (P : A -> Prop) : wp m P -> (m = NoFuel -> F) -> gp F m P.
Proof. destruct m; simpl; auto. Qed.

Section R.
Variable X : prim.
Variable p : params.
Hypothesis wf : wf_params p.
Notation N := (pN p).
Notation K := (pK p).
Notation w := (pN p - pK p)%nat.

(** *** Storage *)
Lemma junk_list_length junk t n : length (junk_list junk t n) = n.
Proof. unfold junk_list. rewrite map_length, seq_length. auto. Qed.

Lemma junk_mat_shape junk t r c : shape r c (junk_mat junk t r c).
Proof.
  unfold junk_mat. split. { rewrite map_length, seq_length. auto. }
  apply Forall_forall. intros x Hx. apply in_map_iff in Hx. destruct Hx as (i & <- & _).
  rewrite map_length, seq_length. auto.
Qed.

Lemma junk_monomial_mem junk t : mono_mem p (junk_monomial p junk t).
Proof. split; cbn; apply junk_list_length. Qed.

Lemma junk_action_mem junk t : act_mem p (junk_action p junk t).
Proof. split; cbn; apply junk_list_length. Qed.

Lemma zero_mat_shape r c : shape r c (repeat (repeat 0 c) r).
Proof.
  split. apply repeat_length. apply Forall_forall. intros x Hx. apply repeat_spec in Hx. subst. apply repeat_length.
Qed.

(** *** Sampled objects *)
Definition sampled (fuel : nat) (input : list Z) (Q : monomial) : Prop :=
  mono_ok p Q /\ forall f r, (fuel <= f)%nat -> mono_mem p r -> monomial_expand X p f r input = Ok Q.

Lemma expand_sampled fuel r input : lawful X (hash_len p) -> mono_mem p r ->
  wp (monomial_expand X p fuel r input) (sampled fuel input).
Proof.
  intros LX HR. eapply wp_mono. { apply wp_keep. apply monomial_expand_spec; auto. }
  intros Q (E & HQ). split; auto. intros f r' Hf HR'.
  eapply simr_eq; [|exact E]. apply monomial_expand_sim; auto.
Qed.

Lemma sampled_det f f' i Q Q' : sampled f i Q -> sampled f' i Q' -> Q = Q'.
Proof.
  intros (_ & H1) (_ & H2).
  specialize (H1 (max f f') (junk_monomial p (fun _ _ => 0) 0) (Nat.le_max_l _ _) (junk_monomial_mem _ _)).
  specialize (H2 (max f f') (junk_monomial p (fun _ _ => 0) 0) (Nat.le_max_r _ _) (junk_monomial_mem _ _)).
  congruence.
Qed.

Lemma sampled_up f f' i Q : (f <= f')%nat -> sampled f i Q -> sampled f' i Q.
Proof. intros H (H1 & H2). split; auto. intros g r Hg. apply H2. lia. Qed.

Record rref_mem (r : rref_mat) : Prop := { rm_vals : shape K w (r_vals r); rm_pos : length (r_pos r) = w }.

Lemma junk_rref_mem junk t : rref_mem (junk_rref p junk t).
Proof. constructor; cbn. apply junk_mat_shape. apply junk_list_length. Qed.

Definition G_ok (M : mat) : Prop := shape K N M /\ redm p M /\ full_rank K N (ent M).

(** [c] is the compact generator sampled from [seed] and [M] its expansion. *)
Definition sampledG (fuel : nat) (seed : list Z) (c : rref_mat) (M : mat) : Prop :=
  (forall f r, (fuel <= f)%nat -> rref_mem r -> generator_SF_seed_expand X p f r seed = Ok c) /\
  (forall full, shape K N full -> generator_rref_expand p full c = Ok M) /\ G_ok M.

Lemma cnt_ge n : cnt (fun j => (K <=? j)%nat) n = (n - K)%nat.
Proof. induction n; auto. rewrite cnt_S, IHn. destruct (Nat.leb_spec K n); lia. Qed.

Lemma cnt_lt_K n : cnt (fun k => negb (K <=? k)%nat) n = min n K.
Proof. induction n; auto. rewrite cnt_S, IHn. destruct (Nat.leb_spec K n); cbn [negb]; lia. Qed.

Lemma enum_ge j : (j < w)%nat -> nth j (enum (fun j => (K <=? j)%nat) N) 0%nat = (j + K)%nat.
Proof.
  intros H. replace j with (cnt (fun j => (K <=? j)%nat) (j + K)) at 1 by (rewrite cnt_ge; lia).
  apply nth_enum_cnt. lia. apply Nat.leb_le. lia.
Qed.

Lemma expand_G0 c : rref_mem c -> (forall i j, (i < K)%nat -> (j < w)%nat -> fq (ent (r_vals c) i j)) ->
  (forall j, (j < w)%nat -> nthZ (r_pos c) j = Z.of_nat (j + K)) ->
  exists M, G_ok M /\ forall full, shape K N full -> generator_rref_expand p full c = Ok M.
Proof.
  intros [R1 R2] HF HP. pose proof (wf_K p wf) as HK.
  assert (G : forall full, shape K N full -> okp (generator_rref_expand p full c) (fun M => shape K N M /\
    forall i j, (i < K)%nat -> (j < N)%nat -> ent M i j =
      if (K <=? j)%nat then ent (r_vals c) i (j - K) else b2z (Nat.eqb i j))).
  { intros full HS. eapply okp_mono.
    - apply (generator_rref_expand_spec p wf full c (fun j => (K <=? j)%nat)); auto.
      + apply cnt_ge.
      + intros j Hj. rewrite HP, enum_ge by auto. auto.
    - intros M (S1 & S2). split; auto. intros i j Hi Hj. rewrite S2 by auto.
      destruct (Nat.leb_spec K j).
      + rewrite cnt_ge. auto.
      + rewrite cnt_lt_K. rewrite Nat.min_l by lia. auto. }
  destruct (G (repeat (repeat 0 N) K) (zero_mat_shape K N)) as (M & E & S1 & S2).
  exists M. split.
  - split; auto. split.
    + intros i j Hi Hj. rewrite S2 by auto. destruct (Nat.leb_spec K j). { apply HF; lia. }
      destruct (Nat.eqb i j); unfold fq; cbn; lia.
    + apply rref_full_rank with (piv := fun i => i). split; [|split; [|split]]; auto.
      * intros; lia.
      * intros i j Hi Hj. rewrite S2 by lia. destruct (Nat.leb_spec K j); [lia|]. destruct (Nat.eqb i j); auto.
      * intros i c0 Hi Hc. rewrite S2 by lia. destruct (Nat.leb_spec K c0); [lia|]. destruct (Nat.eqb_spec i c0); auto. lia.
  - intros full HS. destruct (G full HS) as (M' & E' & S1' & S2'). rewrite E'. f_equal.
    apply (mat_ext _ _ K N); auto. intros i j Hi Hj. rewrite S2, S2' by auto. auto.
Qed.

Lemma generator_sampled fuel r seed : rref_mem r ->
  wp (generator_SF_seed_expand X p fuel r seed) (fun c => rref_mem c /\ exists M, sampledG fuel seed c M).
Proof.
  intros [R1 R2]. eapply wp_mono. { apply wp_keep. apply generator_SF_seed_expand_spec; auto. }
  intros c (E & C1 & C2 & C3 & C4). split. { constructor; auto. }
  destruct (expand_G0 c) as (M & M1 & M2); auto. { constructor; auto. }
  exists M. split; [|split]; auto. intros f r' Hf [R1' R2']. eapply simr_eq; [|exact E]. apply generator_SF_sim; auto.
Qed.

Lemma sampledG_det f f' s c M c' M' : sampledG f s c M -> sampledG f' s c' M' -> c = c' /\ M = M'.
Proof.
  intros (A1 & A2 & _) (B1 & B2 & _).
  specialize (A1 (max f f') (junk_rref p (fun _ _ => 0) 0) (Nat.le_max_l _ _) (junk_rref_mem _ _)).
  specialize (B1 (max f f') (junk_rref p (fun _ _ => 0) 0) (Nat.le_max_r _ _) (junk_rref_mem _ _)).
  assert (c = c') by congruence. subst c'. split; auto.
  specialize (A2 (repeat (repeat 0 N) K) (zero_mat_shape K N)).
  specialize (B2 (repeat (repeat 0 N) K) (zero_mat_shape K N)). congruence.
Qed.

(** *** Commitment rounds *)
Definition prep_rel (G : mat) (Q : monomial) (V : mat) (a : action) : Prop :=
  act_ok p a /\
  exists M R pv fl,
    (forall i s, (i < K)%nat -> (s < N)%nat -> M i (pf (m_perm Q) s) == nthZ (m_coef Q) s * ent G i s) /\
    row_equiv K N M R /\ (forall i j, (i < K)%nat -> (j < N)%nat -> fq (R i j)) /\
    is_rref K N R pv /\ flags_of K N pv fl /\ is_digest p R fl V /\
    (forall k, (k < K)%nat -> pf (m_perm Q) (pf (a_perm a) k) = pv k /\ (pf (a_perm a) k < N)%nat /\
       nthZ (a_coef a) k = nthZ (m_coef Q) (pf (a_perm a) k)).

Lemma prep_round V Qb G Q : shape K w V -> act_mem p Qb -> G_ok G -> mono_ok p Q ->
  okp (prepare_digest_input p V Qb G Q) (fun '(V', a) => prep_rel G Q V' a).
Proof.
  intros HV HQ (G1 & G2 & G3) HM. eapply okp_mono. { apply prepare_digest_input_spec; eauto. }
  intros [V' a] H. exact H.
Qed.

Lemma flags_det pv pv' fl fl' : (forall i, (i < K)%nat -> pv i = pv' i) -> flags_of K N pv fl -> flags_of K N pv' fl' -> fl = fl'.
Proof.
  intros E (L1 & F1) (L2 & F2). apply (list_ext 0); [lia|]. intros c Hc.
  destruct (F1 c ltac:(lia)) as [A1 A2]. destruct (F2 c ltac:(lia)) as [B1 B2].
  assert (D : (exists i, (i < K)%nat /\ pv i = c) \/ (forall i, (i < K)%nat -> pv i <> c)).
  { clear. induction K as [|n IH]. { right; intros; lia. }
    destruct IH as [(i & Hi & E)|H]. { left. exists i. split; auto. }
    destruct (Nat.eq_dec (pv n) c). { left. exists n. auto. }
    right. intros i Hi. destruct (Nat.eq_dec i n); subst; auto. apply H. lia. }
  destruct D as [D|D].
  - rewrite A1, B1; auto. destruct D as (i & Hi & Ei). exists i. rewrite <- E; auto.
  - rewrite A2, B2; auto. intros i Hi. rewrite <- E; auto.
Qed.

Lemma digest_det R R' pv pv' fl fl' V V' : same_code K N R R' ->
  is_rref K N R pv -> is_rref K N R' pv' -> flags_of K N pv fl -> flags_of K N pv' fl' ->
  (forall i j, (i < K)%nat -> (j < N)%nat -> fq (R i j)) ->
  (forall i j, (i < K)%nat -> (j < N)%nat -> fq (R' i j)) ->
  is_digest p R fl V -> is_digest p R' fl' V' -> V = V'.
Proof.
  intros S RR RR' F F' Q Q' D D'. destruct (rref_unique K N R R' pv pv' S RR RR') as [E1 E2].
  eapply is_digest_unique; eauto. pose proof (flags_det _ _ _ _ E1 F F') as <-.
  replace (map (ncol p R') (enum (is_np fl) N)) with (map (ncol p R) (enum (is_np fl) N)); auto.
  apply map_ext_in. intros c Hc. apply in_enum in Hc. unfold ncol. apply map_ext_in. intros i Hi. apply in_seq in Hi.
  apply norm_scale with (e := 1).
  - intros j Hj. apply Q'; auto. apply Hc.
  - intros j Hj. apply Q; auto. apply Hc.
  - intros C. apply cong_eq in C; try discriminate; unfold fq; lia.
  - intros j Hj. rewrite E2 by (auto; apply Hc). rewrite Z.mul_1_l. reflexivity.
  - lia.
Qed.

Lemma perm_surj Q c : mono_ok p Q -> (c < N)%nat -> exists s, (s < N)%nat /\ pf (m_perm Q) s = c.
Proof.
  intros HQ Hc. pose proof (mo_perm p Q HQ) as HP. pose proof (perm_list_len _ _ HP) as L.
  assert (I : In (Z.of_nat c) (m_perm Q)).
  { eapply Permutation_in; [apply Permutation_sym; exact HP|]. apply in_map. apply in_seq. lia. }
  apply In_nth with (d := 0) in I. destruct I as (s & Hs & E). exists s. split; [lia|].
  unfold pf, nthZ. rewrite E. apply Nat2Z.id.
Qed.

Lemma prep_det G Q V a V' a' : mono_ok p Q -> prep_rel G Q V a -> prep_rel G Q V' a' -> V = V'.
Proof.
  intros HQ (_ & M & R & pv & fl & A1 & A2 & A3 & A4 & A5 & A6 & _) (_ & M' & R' & pv' & fl' & B1 & B2 & B3 & B4 & B5 & B6 & _).
  eapply (digest_det R R'); eauto. apply row_equiv_same_code.
  eapply row_equiv_trans; [apply row_equiv_sym; exact A2|]. eapply row_equiv_trans; [|exact B2].
  apply row_equiv_cong. intros i j Hi Hj. destruct (perm_surj Q j HQ Hj) as (s & Hs & <-).
  rewrite A1, B1 by auto. reflexivity.
Qed.

(** *** Challenged rounds *)
Definition chal_rel (Gx : mat) (a : action) (V : mat) : Prop :=
  exists M R pv fl,
    (forall i k, (i < K)%nat -> (k < N)%nat ->
       M i k == (if (k <? K)%nat then nthZ (a_coef a) k else 1) * ent Gx i (act_src p a k)) /\
    row_equiv K N M R /\ (forall i j, (i < K)%nat -> (j < N)%nat -> fq (R i j)) /\
    is_rref K N R pv /\ flags_of K N pv fl /\ is_digest p R fl V.

Lemma bij_surj n g : bij n g -> forall c, (c < n)%nat -> exists a, (a < n)%nat /\ g a = c.
Proof.
  intros [B1 B2] c Hc.
  assert (I : incl (seq 0 n) (map g (seq 0 n))).
  { apply NoDup_length_incl.
    - assert (ND : forall l, NoDup l -> (forall x, In x l -> (x < n)%nat) -> NoDup (map g l)).
      { induction l as [|x l IH]; cbn; intros ND H; constructor.
        - intros I. apply in_map_iff in I. destruct I as (b & Eb & I).
          assert (b = x) by (apply B2; auto). subst. inversion ND; auto.
        - apply IH; auto. inversion ND; auto. }
      apply ND. apply seq_NoDup. intros x Hx. apply in_seq in Hx. lia.
    - rewrite map_length. auto.
    - intros x Hx. apply in_map_iff in Hx. destruct Hx as (i & <- & Hi). apply in_seq in Hi.
      apply in_seq. specialize (B1 i ltac:(lia)). lia. }
  assert (Ic : In c (map g (seq 0 n))) by (apply I; apply in_seq; lia).
  apply in_map_iff in Ic. destruct Ic as (a & E & Ha). apply in_seq in Ha. exists a. split; auto. lia.
Qed.

(** Permuting and scaling columns preserves the rank. *)
Lemma full_rank_cols A M g e : bij N g -> (forall a, (a < N)%nat -> ~ e a == 0) -> full_rank K N A ->
  (forall i k, (i < K)%nat -> (k < N)%nat -> M i k == e k * A i (g k)) -> full_rank K N M.
Proof.
  intros HB He HA HM a Ha. apply HA. intros j Hj. destruct (bij_surj _ _ HB j Hj) as (k & Hk & <-).
  specialize (Ha k Hk). specialize (He k Hk). destruct (cong_inv (e k) He) as (d & _ & Hd).
  assert (E : sumn K (fun i => a i * M i k) == e k * sumn K (fun i => a i * A i (g k))).
  { rewrite <- sumn_scal. apply sumn_cong. intros i Hi. rewrite HM by auto.
    rewrite Z.mul_assoc, (Z.mul_comm (a i)), <- Z.mul_assoc. reflexivity. }
  rewrite E in Ha. apply (cong_mul0 (e k)); auto.
Qed.

Lemma chal_round V Gx a : shape K w V -> G_ok Gx -> act_ok p a ->
  okp (Gh <- apply_action_to_G p (repeat (repeat 0 N) K) Gx a ;;
       ' (_, Gr, piv) <- generator_RREF p Gh (repeat 0 N) ;;
       V1 <- verify_normalize p V Gr piv ;;
       lex_sort_cols p V1) (fun V' => shape K w V' /\ chal_rel Gx a V').
Proof.
  intros HV (G1 & G2 & G3) HA. pose proof (wf_K p wf) as HK.
  eapply okp_bind. { apply apply_action_to_G_spec; auto. apply zero_mat_shape. }
  intros Gh (H1 & H2 & H3).
  eapply okp_bind. { apply generator_RREF_spec; auto. lia. }
  intros [[ret Gr] piv] (J1 & J2 & J3 & J4).
  destruct J4 as [(_ & pv & J5 & J6)|(_ & J4)].
  2:{ exfalso. apply J4. apply full_rank_cols with (A := ent Gx) (g := act_src p a)
        (e := fun k => if (k <? K)%nat then nthZ (a_coef a) k else 1); auto.
      - apply act_src_bij; auto.
      - intros k Hk. destruct (Nat.ltb_spec k K).
        + apply fq_unit_nz. apply (ao_coef p a HA). auto.
        + intros C. apply cong_eq in C; try discriminate; unfold fq; lia. }
  pose proof (flags_cnt_np _ _ _ _ _ J5 J6) as Hcnt.
  eapply okp_bind. { apply verify_normalize_spec; auto. apply J6. }
  intros V1 HF. eapply okp_mono. { apply digest_of_filled; eauto. }
  intros V2 HD. split. { apply HD. }
  exists (ent Gh), (ent Gr), pv, piv. split; [auto|]. auto 10.
Qed.

(** *** Keys: [Gx] is the reduced form of G0 * Qinv^-1. *)
Definition key_rel (G0 : mat) (Qinv : monomial) (Gx : mat) : Prop :=
  exists Mx, (forall i j, (i < K)%nat -> (j < N)%nat ->
      Mx i j == fq_inv (nthZ (m_coef Qinv) j) * ent G0 i (pf (m_perm Qinv) j)) /\
    row_equiv K N Mx (ent Gx).

(** [b] is the response for commitment action [a] and key monomial [Q], up to a factor [lam]. *)
Definition resp_rel (lam : Z) (a : action) (Q : monomial) (b : action) : Prop :=
  forall k s, (k < K)%nat -> (s < N)%nat -> pf (a_perm a) k = pf (m_perm Q) s ->
    pf (a_perm b) k = s /\ nthZ (a_coef b) k == lam * (nthZ (a_coef a) k * nthZ (m_coef Q) s).

Lemma chal_match G0 Qt V a Qinv Gx b V' lam : ~ lam == 0 -> mono_ok p Qt -> mono_ok p Qinv -> act_ok p b ->
  prep_rel G0 Qt V a -> key_rel G0 Qinv Gx -> resp_rel lam a Qinv b -> chal_rel Gx b V' -> V' = V.
Proof.
  intros Hlam HQt HQi Hb (HA & M1 & R1 & pv1 & fl1 & A1 & A2 & A3 & A4 & A5 & A6 & A7)
    (Mx & X1 & X2) HR (M2 & R2 & pv2 & fl2 & B1 & B2 & B3 & B4 & B5 & B6).
  pose proof (wf_K p wf) as HK.
  symmetry. eapply is_digest_unique; eauto.
  set (h := act_src p b). set (sg := pf (m_perm Qinv)). set (tau := pf (m_perm Qt)).
  assert (Bh : bij N h) by (apply act_src_bij; auto).
  assert (Bs : bij N sg) by (apply perm_list_bij; apply (mo_perm p Qinv HQi)).
  assert (Bt : bij N tau) by (apply perm_list_bij; apply (mo_perm p Qt HQt)).
  set (e' := fun k => if (k <? K)%nat then nthZ (a_coef b) k else 1).
  set (d := fun j => fq_inv (nthZ (m_coef Qinv) j)).
  set (ci := fun j => fq_inv (nthZ (m_coef Qt) j)).
  assert (Ne' : forall k, (k < N)%nat -> ~ e' k == 0).
  { intros k Hk. unfold e'. destruct (Nat.ltb_spec k K).
    - apply fq_unit_nz. apply (ao_coef p b Hb). auto.
    - intros C. apply cong_eq in C; try discriminate; unfold fq; lia. }
  assert (Nd : forall j, (j < N)%nat -> fq_unit (d j)).
  { intros j Hj. apply fq_unit_inv. apply (mono_coef p); auto. }
  assert (Nc : forall j, (j < N)%nat -> fq_unit (ci j)).
  { intros j Hj. apply fq_unit_inv. apply (mono_coef p); auto. }
  apply (digest_same p wf M1 R1 pv1 fl1 M2 R2 pv2 fl2 (fun k => tau (sg (h k)))
    (fun k => e' k * (d (h k) * ci (sg (h k)))) lam); auto.
  - split.
    + intros k Hk. apply Bt, Bs, Bh. auto.
    + intros k k' Hk Hk' E. pose proof (proj1 Bh k Hk). pose proof (proj1 Bh k' Hk').
      apply (proj2 Bh); auto. apply (proj2 Bs); auto. apply (proj2 Bt); auto; apply Bs; auto.
  - intros k Hk. pose proof (proj1 Bh k Hk). pose proof (proj1 Bs _ H).
    apply cong_nonzero_mul; [auto|]. apply cong_nonzero_mul; apply fq_unit_nz; auto.
  - assert (EG : forall i s, (i < K)%nat -> (s < N)%nat -> ci s * M1 i (tau s) == ent G0 i s).
    { intros i s Hi Hs. unfold tau. rewrite A1 by auto. rewrite Z.mul_assoc. unfold ci.
      rewrite fq_unit_inv_l by (apply (mono_coef p); auto). rewrite Z.mul_1_l. reflexivity. }
    eapply row_equiv_trans; [|apply row_equiv_cong; intros i j Hi Hj; symmetry; apply B1; auto].
    fold e'. fold h.
    eapply row_equiv_trans; [|apply row_equiv_cols with (A := Mx) (g := h) (e := e'); [apply Bh|exact X2]].
    apply row_equiv_cong. intros i k Hi Hk. pose proof (proj1 Bh k Hk) as Hh. pose proof (proj1 Bs _ Hh) as Hs.
    rewrite X1 by auto. fold (d (h k)). fold sg. rewrite <- (EG i (sg (h k))) by auto.
    rewrite !Z.mul_assoc. reflexivity.
  - intros k Hk. destruct (A7 k Hk) as (P1 & P2 & P3).
    destruct (perm_surj Qinv (pf (a_perm a) k) HQi P2) as (s & Hs & Es).
    destruct (HR k s Hk Hs (eq_sym Es)) as (Q1 & Q2).
    assert (Eh : h k = s). { unfold h, act_src. destruct (Nat.ltb_spec k K); [auto|lia]. }
    rewrite Eh. unfold sg at 1. rewrite Es. split. { exact P1. }
    unfold e'. destruct (Nat.ltb_spec k K); [|lia]. rewrite Q2. unfold sg. rewrite Es. rewrite P3.
    unfold d, ci. pose proof (fq_unit_inv_l _ (mono_coef p Qinv s HQi Hs)) as I1.
    pose proof (fq_unit_inv_l _ (mono_coef p Qt (pf (a_perm a) k) HQt P2)) as I2.
    set (c1 := nthZ (m_coef Qt) (pf (a_perm a) k)) in *. set (c2 := nthZ (m_coef Qinv) s) in *.
    replace (lam * (c1 * c2) * (fq_inv c2 * fq_inv c1)) with (lam * ((fq_inv c2 * c2) * (fq_inv c1 * c1))) by ring.
    rewrite I1, I2. rewrite Z.mul_1_l, Z.mul_1_r. reflexivity.
Qed.

(** *** Packed actions *)
Definition decodes (buf : list Z) (a : action) : Prop :=
  act_mem p a /\ forall old, act_mem p old -> expand_to_monom_action p old buf = Ok a.

Lemma action_ext a b : act_mem p a -> act_mem p b ->
  (forall i, (i < K)%nat -> nthZ (a_perm a) i = nthZ (a_perm b) i) ->
  (forall i, (i < K)%nat -> nthZ (a_coef a) i = nthZ (a_coef b) i) -> a = b.
Proof.
  intros (A1 & A2) (B1 & B2) E1 E2. destruct a as [ap ac], b as [bp bc]; cbn in *. f_equal.
  - apply (list_ext 0); [lia|]. intros i Hi. apply E1. lia.
  - apply (list_ext 0); [lia|]. intros i Hi. apply E2. lia.
Qed.

Lemma decode_any buf : bytes buf -> length buf = mono_bytes p -> exists a, decodes buf a.
Proof.
  intros HB HL.
  destruct (expand_to_monom_action_spec p wf (junk_action p (fun _ _ => 0) 0) buf HB HL (junk_action_mem _ _))
    as (a & E & A1 & A2 & A3).
  exists a. split; auto. intros old HO.
  destruct (expand_to_monom_action_spec p wf old buf HB HL HO) as (b & Eb & B1 & B2 & B3).
  rewrite Eb. f_equal. apply action_ext; auto; intros i Hi; [rewrite A2, B2|rewrite A3, B3]; auto.
Qed.

Lemma decodes_det buf a b : decodes buf a -> decodes buf b -> a = b.
Proof.
  intros (_ & H1) (_ & H2). specialize (H1 _ (junk_action_mem (fun _ _ => 0) 0)).
  specialize (H2 _ (junk_action_mem (fun _ _ => 0) 0)). congruence.
Qed.

Lemma action_coding buf a : bytes buf -> length buf = mono_bytes p -> act_ok p a ->
  okp (compress_monom_action p buf a) (fun b => length b = mono_bytes p /\ bytes b /\ decodes b a).
Proof.
  intros HB HL [A1 A2 A3 A4]. pose proof (N_lt_nb p wf) as NB.
  assert (P : forall old, act_mem p old -> okp (compress_monom_action p buf a) (fun b => length b = mono_bytes p /\ bytes b /\
     expand_to_monom_action p old b = Ok a)).
  { intros old HO. apply action_roundtrip; auto.
    - intros i Hi. specialize (A2 i Hi). lia.
    - intros i Hi. specialize (A4 i Hi). unfold fq_unit in A4. lia. }
  destruct (P _ (junk_action_mem (fun _ _ => 0) 0)) as (b & E & B1 & B2 & _).
  exists b. split; auto. split; auto. split; auto. split; auto. intros old HO.
  destruct (P old HO) as (b' & E' & _ & _ & D). rewrite E in E'. injection E' as <-. exact D.
Qed.

(** The packed form does not depend on what the buffer held. *)
Definition encodes (buf : list Z) (a : action) : Prop :=
  forall old, bytes old -> length old = mono_bytes p -> compress_monom_action p old a = Ok buf.

Lemma action_encodes old a b : bytes old -> length old = mono_bytes p -> act_ok p a ->
  compress_monom_action p old a = Ok b -> encodes b a.
Proof.
  intros HB HL [A1 A2 A3 A4] E old' HB' HL'. pose proof (N_lt_nb p wf) as NB. rewrite <- E. apply action_old; auto.
  - intros i Hi. specialize (A2 i Hi). lia.
  - intros i Hi. specialize (A4 i Hi). unfold fq_unit in A4. lia.
Qed.

(** *** Packed generators *)
Definition decodesG (buf : list Z) (G : mat) : Prop :=
  shape K N G /\ forall old, shape K N old -> expand_to_rref p old buf = Ok G.

Lemma generator_coding buf full piv pv : bytes buf -> length buf = rref_bytes p ->
  shape K N full -> reduced K N (ent full) -> is_rref K N (ent full) pv -> flags_of K N pv piv ->
  okp (compress_rref p buf full piv) (fun b => length b = rref_bytes p /\ bytes b /\ decodesG b full).
Proof.
  intros HB HL HS HR HRR HF.
  destruct (rref_roundtrip p wf buf _ full piv pv HB HL (zero_mat_shape K N) HS HR HRR HF) as (b & E & B1 & B2 & _).
  exists b. split; auto. split; auto. split; auto. split; auto. intros old HO.
  destruct (rref_roundtrip p wf buf old full piv pv HB HL HO HS HR HRR HF) as (b' & E' & _ & _ & D).
  rewrite E in E'. injection E' as <-. exact D.
Qed.

Definition encodesG (buf : list Z) (G : mat) : Prop :=
  forall old pv piv, bytes old -> length old = rref_bytes p -> is_rref K N (ent G) pv -> flags_of K N pv piv ->
    compress_rref p old G piv = Ok buf.

Lemma generator_encodes old G pv piv b : bytes old -> length old = rref_bytes p ->
  shape K N G -> reduced K N (ent G) -> is_rref K N (ent G) pv -> flags_of K N pv piv ->
  compress_rref p old G piv = Ok b -> encodesG b G.
Proof.
  intros HB HL HS HR HRR HF E old' pv' piv' HB' HL' HRR' HF'.
  destruct (rref_unique K N (ent G) (ent G) pv pv' (row_equiv_same_code _ _ _ _ (row_equiv_refl _ _ _)) HRR HRR') as [E1 _].
  rewrite <- (flags_det _ _ _ _ E1 HF HF'). rewrite <- E. apply (rref_old p wf old' old G piv pv); auto.
Qed.

Lemma decodesG_det buf a b : decodesG buf a -> decodesG buf b -> a = b.
Proof.
  intros (_ & H1) (_ & H2). specialize (H1 _ (zero_mat_shape K N)). specialize (H2 _ (zero_mat_shape K N)). congruence.
Qed.

End R.
