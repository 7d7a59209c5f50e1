(** Property C62: two signatures made with the same random bytes give away the private monomials. The programs of this
    file are not in the repository: they are what somebody who holds a public key and two signatures can run. *)
From Verif Require Import Base BaseLemmas Params ParamsProofs Fq Prim Samplers Monomial Codes Utils SeedTree Less Spec SampleSpec LessSpec
  FqProofs EnumProofs Sums LayoutProofs MonoProofs SeedTreeProofs RoundProofs VerifyProofs SignerProofs DetProofs SpecSampling SpecBridge SpecMain PropSpec PropScheme PropBind Toy.

Section A.
Variable X : prim.
Variable p : params.
Variable fuel : nat.
Notation N := (pN p).
Notation K := (pK p).

(** The column of the key, where the private permutation sends it, and its private coefficient: from the action [bar] of
    the commitment and the response [b]. *)
Definition entries (bar b : action) : list (nat * Z * Z) :=
  map (fun k => (Z.to_nat (nth k (a_perm b) 0), nth k (a_perm bar) 0, (nth k (a_coef b) 0 * fq_inv (nth k (a_coef bar) 0)) mod 127)) (seq 0 K).

(** Round [t], opened by [sig] and answered by [sig']: the number of the private monomial, and its entries. *)
Definition attack_round (pk sig sig' : list Z) (t : nat) : res (Z * list (nat * Z * Z)) :=
  digest <- rd sig (off_digest p) (hash_len p) ;;
  fws <- expand_digest_to_fixed_weight X p fuel (repeat 0 (pT p)) digest ;;
  digest' <- rd sig' (off_digest p) (hash_len p) ;;
  fws' <- expand_digest_to_fixed_weight X p fuel (repeat 0 (pT p)) digest' ;;
  x <- get fws t ;; x' <- get fws' t ;;
  if (x =? 0) && negb (x' =? 0) then
    salt <- rd sig 0 (hash_len p) ;;
    ' (_, tree) <- rebuild_seed_tree_leaves X p (repeat (repeat 0 (seed_len p)) (num_nodes p)) (to_publish fws) (skipn (off_seeds p) sig) salt ;;
    g0seed <- rd pk 0 (seed_len p) ;;
    c <- generator_SF_seed_expand X p fuel {| r_vals := repeat (repeat 0 (N - K)) K; r_pos := repeat 0 (N - K) |} g0seed ;;
    G <- generator_rref_expand p (repeat (repeat 0 N) K) c ;;
    sd <- get tree (num_leaves p - 1 + t) ;;
    Q <- monomial_mat_seed_expand_salt_rnd X p fuel {| m_coef := repeat 0 N; m_perm := repeat 0 N |} sd salt t ;;
    ' (_, bar) <- prepare_digest_input p (repeat (repeat 0 (N - K)) K) {| a_perm := repeat 0 K; a_coef := repeat 0 K |} G Q ;;
    ab <- rd sig' (off_monom p (weight (firstn t fws'))) (mono_bytes p) ;;
    b <- expand_to_monom_action p {| a_perm := repeat 0 K; a_coef := repeat 0 K |} ab ;;
    Ok (x', entries bar b)
  else Ok (0, []).

(** All rounds, and the entries of private monomial [x] found in them. *)
Fixpoint attack_rounds (pk sig sig' : list Z) (x : Z) (n : nat) : res (list (nat * Z * Z)) :=
  match n with
  | O => Ok []
  | S n' =>
      l <- attack_rounds pk sig sig' x n' ;;
      ' (y, e) <- attack_round pk sig sig' n' ;;
      Ok (if y =? x then e ++ l else l)
  end.

(** A monomial with these entries. *)
Definition fill (l : list (nat * Z * Z)) : monomial :=
  fold_right (fun e q => {| m_coef := upd (m_coef q) (fst (fst e)) (snd e); m_perm := upd (m_perm q) (fst (fst e)) (snd (fst e)) |})
    {| m_coef := repeat 0 N; m_perm := repeat 0 N |} l.
Definition attack (pk sig sig' : list Z) (x : Z) : res monomial :=
  l <- attack_rounds pk sig sig' x (pT p) ;; Ok (fill l).
End A.

(** The entries belong to the monomial matrix. *)
Definition belongs (perm coef : list Z) (e : nat * Z * Z) : Prop :=
  nth (fst (fst e)) perm 0 = snd (fst e) /\ nth (fst (fst e)) coef 0 = snd e.

Section P.
Variable X : prim.
Variable p : params.
Hypothesis wf : wf_params p.
Hypothesis LX : lawful X (hash_len p).
Notation N := (pN p).
Notation K := (pK p).

Lemma entries_ok bar Q b : act_ok p bar -> mono_ok p Q -> act_ok p b -> resp_rel p 1 bar Q b ->
  length (entries p bar b) = K /\ NoDup (map (fun e => fst (fst e)) (entries p bar b)) /\ Forall (belongs (m_perm Q) (m_coef Q)) (entries p bar b).
Proof.
  intros Hbar HQ Hb R.
  pose proof (perm_list_bij _ _ (mo_perm p Q HQ)) as BQ.
  assert (S : forall k, (k < K)%nat -> (pf (a_perm b) k < N)%nat /\ pf (m_perm Q) (pf (a_perm b) k) = pf (a_perm bar) k /\
    nthZ (a_coef b) k == nthZ (a_coef bar) k * nthZ (m_coef Q) (pf (a_perm b) k)).
  { intros k Hk. destruct (bij_surj _ _ BQ (pf (a_perm bar) k)) as (s & Hs & Es). { unfold pf. pose proof (ao_range p bar Hbar k Hk). lia. }
    destruct (R k s Hk Hs (eq_sym Es)) as (R1 & R2). rewrite R1. split; auto. split; auto. rewrite R2, Z.mul_1_l. reflexivity. }
  unfold entries. split. { rewrite map_length, seq_length. reflexivity. } split.
  - rewrite map_map. cbn [fst]. apply NoDup_nth with (d := 0%nat). rewrite map_length, seq_length. intros i j Hi Hj E.
    rewrite !nth_map_seq in E by auto. apply (ao_inj p b Hb); auto. pose proof (ao_range p b Hb i Hi). pose proof (ao_range p b Hb j Hj). unfold nthZ in *. lia.
  - apply Forall_forall. intros e He. apply in_map_iff in He. destruct He as (k & <- & Hk). apply in_seq in Hk.
    destruct (S k ltac:(lia)) as (S1 & S2 & S3). unfold belongs. cbn [fst snd].
    fold (nthZ (a_perm b) k). fold (pf (a_perm b) k). split.
    + unfold pf in S2 at 1. fold (nthZ (m_perm Q) (pf (a_perm b) k)).
      assert (RG : 0 <= nthZ (m_perm Q) (pf (a_perm b) k) < Z.of_nat N) by (apply (perm_list_in _ _ _ (mo_perm p Q HQ)); apply nth_In; rewrite (perm_list_len _ _ (mo_perm p Q HQ)); auto).
      pose proof (ao_range p bar Hbar k ltac:(lia)) as RB. unfold pf in S2 at 2. unfold nthZ in *. lia.
    + pose proof (mono_coef p Q _ HQ S1) as U. pose proof (ao_coef p bar Hbar k ltac:(lia)) as UB.
      fold (nthZ (a_coef b) k). fold (nthZ (a_coef bar) k). fold (nthZ (m_coef Q) (pf (a_perm b) k)).
      apply cong_eq; [apply fq_unit_fq; auto|unfold fq; apply Z.mod_pos_bound; lia|]. rewrite cong_mod.
      rewrite S3. transitivity (fq_inv (nthZ (a_coef bar) k) * nthZ (a_coef bar) k * nthZ (m_coef Q) (pf (a_perm b) k)).
      * rewrite (fq_unit_inv_l _ UB), Z.mul_1_l. reflexivity.
      * exists 0. ring.
Qed.
Definition blank_mono : monomial := {| m_coef := repeat 0 N; m_perm := repeat 0 N |}.
Lemma blank_mono_mem : mono_mem p {| m_coef := repeat 0 N; m_perm := repeat 0 N |}.
Proof. split; apply repeat_length. Qed.
Lemma blank_act_mem : act_mem p {| a_perm := repeat 0 K; a_coef := repeat 0 K |}.
Proof. split; apply repeat_length. Qed.

(** What the position [k] of the response of round [t] names. *)
Definition answered (sig chal : list Z) (t k : nat) : nat :=
  let pb := match p_cat p with Cat1 => 8 | Cat3 => 9 | Cat5 => 10 end in
  Z.to_nat ((le_val (bytes_at sig (off_monom p (weight (firstn t chal))) (mono_bytes p)) / 2 ^ (pb * Z.of_nat k)) mod 2 ^ pb).

Lemma attack_round_ok f sk pk g m sig num tree c G acts Vs chal fl g' m' sig' num' c' G' acts' Vs' chal' fl' fuel :
  honest_key X p f sk pk -> signed X p g sk m sig num tree c G acts Vs chal fl ->
  signed X p g' sk m' sig' num' tree c' G' acts' Vs' chal' fl' -> sig_salt p sig' = sig_salt p sig -> (g <= fuel)%nat -> (g' <= fuel)%nat ->
  forall t, (t < pT p)%nat ->
  if (nth t chal 0 =? 0) && negb (nth t chal' 0 =? 0) then
    exists Q L, sampled X p g' (nth (Z.to_nat (nth t chal' 0 - 1)) (sk_seeds X p sk) []) Q /\
      attack_round X p fuel pk sig sig' t = Ok (nth t chal' 0, L) /\
      length L = K /\ NoDup (map (fun e => fst (fst e)) L) /\ Forall (belongs (m_perm Q) (m_coef Q)) L /\
      map (fun e => fst (fst e)) L = map (answered sig' chal' t) (seq 0 K)
  else attack_round X p fuel pk sig sig' t = Ok (0, []).
Proof.
  intros HK HS HS' SS Hg Hg' t Ht. pose proof (wf_K p wf) as HKN. pose proof HK as [(csk & g0 & kc & kG & K1 & K2 & K3 & K4 & K5 & K6 & K7 & K8 & K9)].
  pose proof (rebuilt_leaves X p wf LX _ _ _ _ _ _ _ _ _ _ _ _ HS sig) as TREE.
  pose proof HS as [A1 A2 A3 A4 A5 A6 A7 A8 A9 A10 A11 A12 A13 A14 A15 A16 A17 AZ A18].
  pose proof HS' as [B1 B2 B3 B4 B5 B6 B7 B8 B9 B10 B11 B12 B13 B14 B15 B16 B17 BZ B18].
  assert (SZ : (off_digest p + hash_len p <= sizeof_sign p /\ off_seeds p + num * seed_len p <= sizeof_sign p /\ hash_len p <= sizeof_sign p /\ off_seeds p <= sizeof_sign p)%nat).
  { unfold sizeof_sign, seed_storage_len, off_seeds, off_digest in *. lia. }
  destruct SZ as (Z1 & Z2 & Z3 & Z4).
  specialize (TREE ltac:(lia) eq_refl A16).
  unfold attack_round.
  rewrite (rd_ok sig) by lia. cbn [bind]. fold (sig_digest p sig). rewrite (A11 fuel Hg). cbn [bind].
  rewrite (rd_ok sig') by lia. cbn [bind]. fold (sig_digest p sig'). rewrite (B11 fuel Hg'). cbn [bind].
  destruct A10 as (C1 & C2 & C3). destruct B10 as (D1 & D2 & D3).
  rewrite (get_ok chal t 0) by lia. cbn [bind]. rewrite (get_ok chal' t 0) by lia. cbn [bind].
  destruct ((nth t chal 0 =? 0) && negb (nth t chal' 0 =? 0)) eqn:EB; [|reflexivity].
  apply andb_true_iff in EB. destruct EB as (E0 & E1).
  rewrite (rd_ok sig) by lia. cbn [bind]. change (firstn (hash_len p) (skipn 0 sig)) with (sig_salt p sig).
  destruct (to_publish_ok p chal (conj C1 (conj C2 C3))) as (P1 & P2 & P3).
  destruct (rebuild_spec X p wf (to_publish chal) P1 P2 (repeat (repeat 0 (seed_len p)) (num_nodes p)) (skipn (off_seeds p) sig) (sig_salt p sig) LX
    (zero_mat_shape _ _) P3) as (fl0 & FS & _ & RB).
  { right. intros fl1 FS. rewrite skipn_length. assert (fl1 = fl) by (eapply flags_spec_det; eauto). subst. lia. }
  destruct RB as ((used & tr) & ER & _ & TM & _). rewrite ER. cbn [bind].
  rewrite (rd_ok pk 0 (seed_len p)) by (rewrite K5; apply Nat.le_add_r). cbn [bind]. change (firstn (seed_len p) (skipn 0 pk)) with (pk_seed p pk).
  assert (A6' : sampledG X p g (pk_seed p pk) c G).
  { rewrite K8. unfold sk_g0, off_sk_g0 in A6. rewrite <- K2, K1, skipn_app, skipn_all, Nat.sub_diag in A6. cbn [skipn app] in A6.
    rewrite firstn_all2 in A6 by lia. exact A6. }
  destruct A6' as (S1 & S2 & S3). rewrite (S1 fuel _ Hg) by (constructor; cbn; [apply zero_mat_shape|apply repeat_length]). cbn [bind].
  rewrite S2 by apply zero_mat_shape. cbn [bind].
  assert (HL : (num_leaves p - 1 + t < length tr)%nat). { destruct TM as (TM & _). rewrite TM. pose proof (T_lt_L p wf). pose proof (nn_L p). lia. }
  rewrite (get_ok tr _ []) by exact HL. cbn [bind].
  assert (N0 : nz chal t = false) by (unfold nz; rewrite E0; reflexivity). assert (N1 : nz chal' t = true) by (unfold nz; exact E1).
  rewrite (TREE used tr ER t Ht N0).
  destruct (A8 t Ht) as (Qt & (OQ & SQ) & PR). unfold monomial_mat_seed_expand_salt_rnd. rewrite SQ by (auto; apply blank_mono_mem). cbn [bind].
  destruct (prep_round p wf _ _ G Qt (zero_mat_shape K (N - K)) blank_act_mem S3 OQ) as ((V1 & bar) & EP & PR'). rewrite EP. cbn [bind].
  assert (bar = nth t acts act0) as -> by (apply (prep_det_act p G Qt _ _ _ _ OQ PR' PR)).
  assert (EA : nth t acts' act0 = nth t acts act0).
  { destruct (B8 t Ht) as (Qt' & SQ' & PR2). rewrite SS in SQ'. destruct (sampledG_det X p _ _ _ _ _ _ _ A6 B6) as [<- <-].
    rewrite (sampled_det X p _ _ _ _ _ SQ' (conj OQ SQ)) in PR2. apply (prep_det_act p G Qt _ _ _ _ OQ PR2 PR). }
  destruct (B18 t Ht N1) as (Q & b & R1 & R2 & R3 & R4 & _). rewrite EA in R2.
  assert (UL : (cnt (nz chal') t < pW p)%nat) by (apply (used_lt p chal' (conj D1 (conj D2 D3))); auto).
  pose proof (off_monom_fit p _ UL) as FIT.
  assert (WC : weight (firstn t chal') = cnt (nz chal') t) by (rewrite <- responses_cnt by lia; reflexivity).
  rewrite WC. rewrite (rd_ok sig') by lia. cbn [bind]. fold (sig_chunk p sig' (cnt (nz chal') t)).
  pose proof R4 as (_ & R5). rewrite R5 by apply blank_act_mem. cbn [bind].
  destruct PR as (OA & _).
  destruct (entries_ok (nth t acts act0) Q b OA (proj1 R1) R3 R2) as (F1 & F2 & F3).
  exists Q. eexists. split; [exact R1|]. split; [reflexivity|]. split; [exact F1|]. split; [exact F2|]. split; [exact F3|].
  unfold entries. rewrite map_map. cbn [fst]. apply map_ext_in. intros k Hk. apply in_seq in Hk.
  assert (CB : bytes (sig_chunk p sig' (cnt (nz chal') t)) /\ length (sig_chunk p sig' (cnt (nz chal') t)) = mono_bytes p).
  { unfold sig_chunk. split; [apply Forall_firstn, Forall_skipn; auto|]. rewrite firstn_length, skipn_length. lia. }
  destruct CB as (CB & CL).
  pose proof (proj2 (read_action_decodes p wf _ (a_perm b) (a_coef b) CB CL)) as RA. destruct b as [bp bc]. specialize (RA R4).
  destruct RA as (_ & _ & RA). unfold answered. rewrite WC. cbn [a_perm] in *. rewrite (proj1 (RA k ltac:(lia))). reflexivity.
Qed.
Lemma attack_rounds_ok pk sig sig' fuel x perm coef chal chal' n :
  (forall t, (t < n)%nat -> if (nth t chal 0 =? 0) && negb (nth t chal' 0 =? 0) then
     exists L, attack_round X p fuel pk sig sig' t = Ok (nth t chal' 0, L) /\
       (nth t chal' 0 = x -> Forall (belongs perm coef) L) /\ map (fun e => fst (fst e)) L = map (answered sig' chal' t) (seq 0 K)
   else attack_round X p fuel pk sig sig' t = Ok (0, [])) -> x <> 0 ->
  exists l, attack_rounds X p fuel pk sig sig' x n = Ok l /\ Forall (belongs perm coef) l /\
    forall j, In j (map (fun e => fst (fst e)) l) <->
      exists t k, (t < n)%nat /\ (k < K)%nat /\ nth t chal 0 = 0 /\ nth t chal' 0 = x /\ answered sig' chal' t k = j.
Proof.
  intros H Hx. induction n; cbn [attack_rounds].
  - exists []. split; auto. split; auto. intros j. split; [intros []|]. intros (t & k & C & _). lia.
  - destruct IHn as (l & -> & F & I). { intros t Ht. apply H. lia. } cbn [bind].
    specialize (H n ltac:(lia)). destruct (Z.eqb_spec (nth n chal 0) 0) as [E0|E0]; cbn [andb] in H.
    + destruct (Z.eqb_spec (nth n chal' 0) 0) as [E1|E1]; cbn [negb] in H.
      * rewrite H. cbn [bind]. destruct (Z.eqb_spec 0 x) as [C|_]; [congruence|]. exists l. split; auto. split; auto. intros j. rewrite I. split.
        -- intros (t & k & Q1 & Q2). exists t, k. split; [lia|auto].
        -- intros (t & k & Q1 & Q2 & Q3 & Q4 & Q5). exists t, k. split; auto. destruct (Nat.eq_dec t n) as [->|]; [congruence|lia].
      * destruct H as (L & -> & H1 & H2). cbn [bind]. destruct (Z.eqb_spec (nth n chal' 0) x) as [EX|NX].
        -- eexists. split; [reflexivity|]. split. { apply Forall_app. auto. } intros j. rewrite map_app, in_app_iff, I, H2, in_map_iff. split.
           ++ intros [(k & Q1 & Q2)|(t & k & Q1 & Q2)]; [exists n, k; apply in_seq in Q2; repeat split; auto; lia|exists t, k; split; [lia|auto]].
           ++ intros (t & k & Q1 & Q2 & Q3 & Q4 & Q5). destruct (Nat.eq_dec t n) as [->|]; [left; exists k; split; auto; apply in_seq; lia|right; exists t, k; split; [lia|auto]].
        -- exists l. split; auto. split; auto. intros j. rewrite I. split.
           ++ intros (t & k & Q1 & Q2). exists t, k. split; [lia|auto].
           ++ intros (t & k & Q1 & Q2 & Q3 & Q4 & Q5). exists t, k. split; auto. destruct (Nat.eq_dec t n) as [->|]; [congruence|lia].
    + rewrite H. cbn [bind]. destruct (Z.eqb_spec 0 x) as [C|_]; [congruence|]. exists l. split; auto. split; auto. intros j. rewrite I. split.
      * intros (t & k & Q1 & Q2). exists t, k. split; [lia|auto].
      * intros (t & k & Q1 & Q2 & Q3 & Q4 & Q5). exists t, k. split; auto. destruct (Nat.eq_dec t n) as [->|]; [congruence|lia].
Qed.

Lemma fill_ok perm coef l : Forall (belongs perm coef) l ->
  length (m_perm (fill p l)) = N /\ length (m_coef (fill p l)) = N /\
  forall j, (j < N)%nat ->
    (In j (map (fun e => fst (fst e)) l) -> nth j (m_perm (fill p l)) 0 = nth j perm 0 /\ nth j (m_coef (fill p l)) 0 = nth j coef 0) /\
    (~ In j (map (fun e => fst (fst e)) l) -> nth j (m_coef (fill p l)) 0 = 0).
Proof.
  intros F. induction l as [|[[i s] c] l IH].
  - cbn. rewrite !repeat_length. split; auto. split; auto. intros j Hj. split; [intros []|]. intros _. apply nth_repeat.
  - apply Forall_cons_iff in F. destruct F as ((B1 & B2) & F). destruct (IH F) as (L1 & L2 & H). cbn [fill fold_right map fst snd m_perm m_coef] in *.
    fold (fill p l). rewrite !upd_length. split; auto. split; auto. intros j Hj. specialize (H j Hj). destruct (Nat.eq_dec i j) as [->|NE].
    + split; [|intros C; exfalso; apply C; left; auto]. intros _. rewrite !nth_upd by (unfold fill in *; lia). rewrite Nat.eqb_refl. auto.
    + rewrite !nth_upd_other by auto. split; [intros [C|C]; [congruence|apply H; auto]|intros C; apply H; intros D; apply C; right; auto].
Qed.
End P.

(** *** C62 *)

(** Two messages signed in the same state of the generator. A round in which the first challenge is zero and the second is
    not gives K entries of the private monomial that the second challenge asks for. *)
Theorem C62_round : forall X p, wf_params p -> lawful X (hash_len p) ->
  forall r1 sk pk r1', generates X p r1 sk pk r1' ->
  forall r2 m old sig num r2' m' old' sig' num' r2'', length old = sizeof_sign p -> bytes old -> bytes m ->
  length old' = sizeof_sign p -> bytes old' -> bytes m' ->
  signs X p r2 sk m old sig num r2' -> signs X p r2 sk m' old' sig' num' r2'' ->
  exists f, forall fuel chal chal', (f <= fuel)%nat ->
    challenge_of X p (bytes_at sig (off_digest p) (hash_len p)) chal -> challenge_of X p (bytes_at sig' (off_digest p) (hash_len p)) chal' ->
    forall t, (t < pT p)%nat ->
    if (nth t chal 0 =? 0) && negb (nth t chal' 0 =? 0) then
      exists perm coef L, monomial_of X p (private_seed X p (bytes_at sk 0 (prikey_seed_len p)) (Z.to_nat (nth t chal' 0 - 1))) perm coef /\
        attack_round X p fuel pk sig sig' t = Ok (nth t chal' 0, L) /\ length L = pK p /\ NoDup (map (fun e => fst (fst e)) L) /\
        Forall (belongs perm coef) L /\ map (fun e => fst (fst e)) L = map (answered p sig' chal' t) (seq 0 (pK p))
    else attack_round X p fuel pk sig sig' t = Ok (0, []).
Proof.
  intros X p wf LX r1 sk pk r1' HG r2 m old sig num r2' m' old' sig' num' r2'' H1 H2 H3 H1' H2' H3' HS HS'.
  destruct (C39_keys X p wf LX _ _ _ _ HG) as (KF & SL & _).
  destruct (generates_keygen X p wf LX _ _ _ _ HG) as (f & Hf).
  assert (KP : keypair X p f sk pk).
  { exists (fun _ _ => 0), r1, r1', (repeat 0 (sizeof_sk p)), (repeat 0 (sizeof_pk p)). rewrite !repeat_length.
    split; auto. split; auto. split; [apply zero_bytes|]. apply Hf; auto; try apply repeat_length. apply zero_bytes. }
  pose proof (keypair_honest X p f sk pk wf LX KP) as HH.
  assert (D : forall m old sig num r2', length old = sizeof_sign p -> bytes old -> bytes m -> signs X p r2 sk m old sig num r2' ->
    exists g tree c G acts Vs chal fl, signed X p g sk m sig num tree c G acts Vs chal fl /\ drawn X p r2 r2' sig tree).
  { clear - wf LX SL. intros m old sig num r2' H1 H2 H3 HS.
    destruct (signs_sign X p wf LX r2 sk m old sig num r2' SL H1 H2 H3 HS) as (g & Hg).
    pose proof (Hg g (fun _ _ => 0) (Nat.le_refl g)) as ES.
    assert (T : sign_stuck X p True g (fun _ _ => 0) r2 sk m).
    { unfold sign_stuck. destruct (x_squeeze X (seed_len p) r2). destruct (x_squeeze X (hash_len p) x). cbv zeta. auto 10. }
    pose proof (LESS_sign_drawn X p wf LX True g (fun _ _ => 0) r2 sk m old T SL H1 H2) as S. rewrite ES in S. cbn [gp] in S.
    destruct S as (tree & c & G & acts & Vs & chal & fl & SG & HD & _). exists g, tree, c, G, acts, Vs, chal, fl. auto. }
  destruct (D _ _ _ _ _ H1 H2 H3 HS) as (g & tree & c & G & acts & Vs & ch & fl & SG & HD).
  destruct (D _ _ _ _ _ H1' H2' H3' HS') as (g' & tree' & c' & G' & acts' & Vs' & ch' & fl' & SG' & HD').
  unfold drawn in HD, HD'. destruct (x_squeeze X (seed_len p) r2) as [root rng1]. destruct (x_squeeze X (hash_len p) rng1) as [salt rng2].
  destruct HD as (D1 & _ & D3). destruct HD' as (E1 & _ & E3). rewrite D3 in E3. injection E3 as <-.
  exists (max g g'). intros fuel chal chal' Hfu CO CO' t Ht.
  assert (chal = ch) as ->. { apply (challenge_of_det X p _ _ _ CO). apply (expand_challenge_of X p wf g). apply (sg_chal _ _ _ _ _ _ _ _ _ _ _ _ _ _ SG). auto. }
  assert (chal' = ch') as ->. { apply (challenge_of_det X p _ _ _ CO'). apply (expand_challenge_of X p wf g'). apply (sg_chal _ _ _ _ _ _ _ _ _ _ _ _ _ _ SG'). auto. }
  pose proof (attack_round_ok X p wf LX f sk pk g m sig num tree c G acts Vs ch fl g' m' sig' num' c' G' acts' Vs' ch' fl' fuel HH SG SG' ltac:(congruence) ltac:(lia) ltac:(lia) t Ht) as A.
  destruct ((nth t ch 0 =? 0) && negb (nth t ch' 0 =? 0)) eqn:EB; [|exact A].
  destruct A as (Q & L & A1 & A2 & A3 & A4 & A5 & A6). exists (m_perm Q), (m_coef Q), L. split; [|auto 10].
  apply andb_true_iff in EB. destruct EB as (_ & N1).
  pose proof (key_index p ch' (sg_fws _ _ _ _ _ _ _ _ _ _ _ _ _ _ SG') t Ht N1) as KI.
  apply (sampled_monomial_of X p wf LX) in A1. unfold sk_seeds in A1. rewrite private_seeds_nth in A1 by exact KI. exact A1.
Qed.

(** All rounds together: the program recovers every column of the private monomial that some such round names, and marks the
    others with coefficient zero. *)
Theorem C62_attack : forall X p, wf_params p -> lawful X (hash_len p) ->
  forall r1 sk pk r1', generates X p r1 sk pk r1' ->
  forall r2 m old sig num r2' m' old' sig' num' r2'', length old = sizeof_sign p -> bytes old -> bytes m ->
  length old' = sizeof_sign p -> bytes old' -> bytes m' ->
  signs X p r2 sk m old sig num r2' -> signs X p r2 sk m' old' sig' num' r2'' ->
  exists f, forall fuel chal chal', (f <= fuel)%nat ->
    challenge_of X p (bytes_at sig (off_digest p) (hash_len p)) chal -> challenge_of X p (bytes_at sig' (off_digest p) (hash_len p)) chal' ->
    forall x perm coef, 1 <= x < Z.of_nat (p_nk p) -> monomial_of X p (private_seed X p (bytes_at sk 0 (prikey_seed_len p)) (Z.to_nat (x - 1))) perm coef ->
    exists Q, attack X p fuel pk sig sig' x = Ok Q /\ length (m_perm Q) = pN p /\ length (m_coef Q) = pN p /\
      forall j, (j < pN p)%nat ->
        let named := exists t k, (t < pT p)%nat /\ (k < pK p)%nat /\ nth t chal 0 = 0 /\ nth t chal' 0 = x /\ answered p sig' chal' t k = j in
        (named -> nth j (m_perm Q) 0 = nth j perm 0 /\ nth j (m_coef Q) 0 = nth j coef 0) /\ (~ named -> nth j (m_coef Q) 0 = 0).
Proof.
  intros X p wf LX r1 sk pk r1' HG r2 m old sig num r2' m' old' sig' num' r2'' H1 H2 H3 H1' H2' H3' HS HS'.
  destruct (C62_round X p wf LX r1 sk pk r1' HG r2 m old sig num r2' m' old' sig' num' r2'' H1 H2 H3 H1' H2' H3' HS HS') as (f & Hf).
  exists f. intros fuel chal chal' Hfu CO CO' x perm coef Hx MO. specialize (Hf fuel chal chal' Hfu CO CO').
  destruct (attack_rounds_ok X p pk sig sig' fuel x perm coef chal chal' (pT p)) as (l & E & F & I).
  { intros t Ht. specialize (Hf t Ht). destruct ((nth t chal 0 =? 0) && negb (nth t chal' 0 =? 0)); auto.
    destruct Hf as (pm & cf & L & M1 & M2 & _ & _ & M5 & M6). exists L. split; auto. split; auto. intros EX. rewrite EX in M1.
    destruct (monomial_of_det X p _ _ _ _ _ M1 MO) as (-> & ->). exact M5. }
  { lia. }
  unfold attack. rewrite E. cbn [bind]. destruct (fill_ok p perm coef l F) as (L1 & L2 & H). exists (fill p l). split; auto. split; auto. split; auto.
  intros j Hj. cbv zeta. destruct (H j Hj) as (Q1 & Q2). rewrite I in Q1, Q2. auto.
Qed.

(** *** Signing with the private monomials in place of the secret key *)
Section F.
Variable X : prim.
Variable p : params.
Variable fuel : nat.
Variable junk : nat -> nat -> Z.

Definition forge_respond (mons : list monomial) (acts : list action) (fws sig : list Z) : res (list Z) :=
  ' (sig', _, _) <- for_ (pT p) 0 (fun i s =>
      let '(sig, emitted, act) := s in
      x <- get fws i ;;
      if x =? 0 then Ok (sig, emitted, act)
      else
        Q <- get mons (Z.to_nat (x - 1)) ;;
        a <- get acts i ;;
        act' <- monomial_compose_action p (junk_monomial p junk 18) act Q a ;;
        if (emitted <? pW p)%nat then
          buf <- rd sig (off_monom p emitted) (mono_bytes p) ;;
          buf' <- compress_monom_action p buf act' ;;
          sig' <- wr sig (off_monom p emitted) buf' ;;
          Ok (sig', S emitted, act')
        else UB) (sig, 0%nat, junk_action p junk 20) ;;
  Ok sig'.

Definition forge (pk : list Z) (mons : list monomial) (rng : xstate X) (m sig : list Z) : res (list Z * nat * xstate X) :=
  let (ephem, rng1) := x_squeeze X (seed_len p) rng in
  let (salt, rng2) := x_squeeze X (hash_len p) rng1 in
  sig1 <- wr sig 0 salt ;;
  tree <- generate_seed_tree_from_root X p (repeat (repeat 0 (seed_len p)) (num_nodes p)) ephem salt ;;
  g0seed <- rd pk 0 (seed_len p) ;;
  G0 <- generator_SF_seed_expand X p fuel (junk_rref p junk 0) g0seed ;;
  fullG <- generator_rref_expand p (junk_mat junk 2 (pK p) (pN p)) G0 ;;
  ' (h, acts) <- sign_commit X p fuel junk tree salt fullG ;;
  let digest := h_final X (h_absorb X (h_absorb X h m) salt) in
  sig2 <- wr sig1 (off_digest p) digest ;;
  fws <- expand_digest_to_fixed_weight X p fuel (repeat 0 (pT p)) digest ;;
  sig3 <- wr sig2 (off_seeds p) (repeat 0 (Z.to_nat (p_maxbytes p))) ;;
  stg <- rd sig3 (off_seeds p) (seed_storage_len p) ;;
  ' (num, stg1) <- seed_tree_path p tree (to_publish fws) stg ;;
  sig4 <- wr sig3 (off_seeds p) stg1 ;;
  sig5 <- forge_respond mons acts fws sig4 ;;
  stg2 <- rd sig5 (off_seeds p) (seed_storage_len p) ;;
  stg3 <- set stg2 (num * seed_len p) (u8 (Z.of_nat num)) ;;
  sig6 <- wr sig5 (off_seeds p) stg3 ;;
  Ok (sig6, num, rng2).
End F.

Lemma for_ok_transfer {S} (f g : nat -> S -> res S) n : forall start s r, (forall i s s', f i s = Ok s' -> g i s = Ok s') ->
  for_ n start f s = Ok r -> for_ n start g s = Ok r.
Proof.
  induction n; intros start s r H E; cbn [for_] in *; auto. destruct (f start s) as [s1| |] eqn:E1; cbn [bind] in E; try discriminate.
  rewrite (H _ _ _ E1). cbn [bind]. apply IHn; auto.
Qed.

(** Who has the private monomials signs every message as the owner of the secret key does, and the signatures are accepted. *)
Theorem C62_forge : forall X p, wf_params p -> lawful X (hash_len p) ->
  forall r1 sk pk r1', generates X p r1 sk pk r1' ->
  forall mons, length mons = (p_nk p - 1)%nat ->
  (forall x Q, nth_error mons x = Some Q -> monomial_of X p (private_seed X p (bytes_at sk 0 (prikey_seed_len p)) x) (m_perm Q) (m_coef Q)) ->
  forall rng m old sig num rng', length old = sizeof_sign p -> bytes old -> bytes m -> signs X p rng sk m old sig num rng' ->
  exists f, forall fuel junk, (f <= fuel)%nat ->
    forge X p fuel junk pk mons rng m old = Ok (sig, num, rng') /\ LESS_verify X p fuel junk pk m sig = Ok 1.
Proof.
  intros X p wf LX r1 sk pk r1' HG mons HM HMO rng m old sig num rng' H1 H2 H3 HS.
  destruct (C39_keys X p wf LX _ _ _ _ HG) as (KF & SL & _).
  destruct (signs_sign X p wf LX rng sk m old sig num rng' SL H1 H2 H3 HS) as (g & Hg).
  destruct (generates_keygen X p wf LX _ _ _ _ HG) as (f & Hf).
  assert (KP : keypair X p f sk pk).
  { exists (fun _ _ => 0), r1, r1', (repeat 0 (sizeof_sk p)), (repeat 0 (sizeof_pk p)). rewrite !repeat_length.
    split; auto. split; auto. split; [apply zero_bytes|]. apply Hf; auto; try apply repeat_length. apply zero_bytes. }
  exists g. intros fuel junk Hfu. split; [|apply (C01_correct X p wf LX f sk pk KP g junk rng m old sig num rng' H1 H2); auto].
  pose proof (Hg fuel junk Hfu) as ES. unfold LESS_sign in ES. unfold forge.
  pose proof HG as (csk & g0 & q1 & G0 & A1 & A2 & A3 & A4 & A5 & _).
  pose proof (law_sq_len _ _ LX (prikey_seed_len p) r1) as L1. rewrite A1 in L1. cbn [fst] in L1.
  pose proof (law_sq_len _ _ LX (seed_len p) q1) as L2. rewrite A2 in L2. cbn [fst] in L2.
  assert (R1 : rd sk 0 (prikey_seed_len p) = Ok csk).
  { rewrite rd_ok by (rewrite A3, app_length; lia). cbn [skipn]. rewrite A3, <- L1, firstn_app, firstn_all, Nat.sub_diag. cbn [firstn]. rewrite app_nil_r. reflexivity. }
  assert (R2 : rd sk (off_sk_g0 p) (seed_len p) = rd pk 0 (seed_len p)).
  { rewrite rd_ok by (rewrite A3, app_length; unfold off_sk_g0; lia). rewrite (rd_ok pk) by (rewrite A4; apply Nat.le_add_r).
    unfold bytes_at in A5. rewrite A5. unfold off_sk_g0. rewrite A3, <- L1, skipn_app, skipn_all, Nat.sub_diag. cbn [skipn app]. rewrite firstn_all2 by lia. reflexivity. }
  assert (CS : bytes_at sk 0 (prikey_seed_len p) = csk).
  { unfold bytes_at. cbn [skipn]. rewrite A3, <- L1, firstn_app, firstn_all, Nat.sub_diag. cbn [firstn]. apply app_nil_r. }
  rewrite CS in HMO. rewrite R1 in ES. cbn [bind] in ES. rewrite R2 in ES.
  assert (TR : forall acts fws s s', sign_respond X p fuel junk (private_seeds X p (p_nk p - 1) (x_init X csk)) acts fws s = Ok s' ->
    forge_respond p junk mons acts fws s = Ok s').
  { clear - wf LX HM HMO. intros acts fws s s' E. unfold sign_respond in E. unfold forge_respond.
    apply bind_ok in E. destruct E as (st0 & E1 & E2).
    match goal with |- bind (for_ ?n ?st ?g ?s0) _ = _ => assert (E3 : for_ n st g s0 = Ok st0) end.
    { eapply for_ok_transfer; [|exact E1]. clear E1 E2. intros i [[sg em] act] r E. cbv beta iota zeta in *.
      apply bind_ok in E. destruct E as (x & Ex & E). rewrite Ex. cbn [bind]. destruct (x =? 0); auto.
      apply bind_ok in E. destruct E as (sd & Es & E). apply bind_ok in E. destruct E as (Q & EQ & E).
      unfold get in Es. destruct (nth_error (private_seeds X p (p_nk p - 1) (x_init X csk)) (Z.to_nat (x - 1))) as [sd'|] eqn:En; [|discriminate].
      injection Es as ->. assert (B : (Z.to_nat (x - 1) < p_nk p - 1)%nat).
      { rewrite <- (private_seeds_spec X p (p_nk p - 1) (x_init X csk)). apply nth_error_Some. congruence. }
      assert (sd = private_seed X p csk (Z.to_nat (x - 1))) as ->.
      { rewrite <- (nth_error_nth _ _ [] En), private_seeds_nth by exact B. reflexivity. }
      unfold get at 1. destruct (nth_error mons (Z.to_nat (x - 1))) as [Q'|] eqn:EM; [|apply nth_error_None in EM; lia]. cbn [bind].
      apply HMO in EM. apply (expand_monomial_of X p wf LX) in EQ; [|apply junk_monomial_mem].
      destruct (monomial_of_det X p _ _ _ _ _ EM EQ) as (Q1 & Q2). destruct Q as [qa qb], Q' as [qa' qb']. cbn [m_perm m_coef] in Q1, Q2. subst. exact E. }
    rewrite E3. exact E2. }
  destruct (x_squeeze X (seed_len p) rng) as [ephem rng1]. destruct (x_squeeze X (hash_len p) rng1) as [salt rng2].
  repeat (match type of ES with bind (sign_respond _ _ _ _ _ _ _ _) _ = _ => fail 1 | bind ?e _ = _ => destruct e; cbn [bind] in *; try discriminate end;
    repeat match type of ES with (let (_, _) := ?e in _) = _ => destruct e end; cbv zeta in * ).
  apply bind_ok in ES. destruct ES as (s5 & E5 & ES). rewrite (TR _ _ _ _ E5). exact ES.
Qed.

(** *** Examples *)

(** The two toy signatures of one generator state: the first opens round 4, which the second answers with monomial 2; the
    second opens round 3, which the first answers with monomial 1. Each pair gives three columns of the private monomial. *)
Definition toy_mons : list monomial := Eval vm_compute in
  map (fun x => okd (blank_mono toy_params) (monomial_mat_seed_expand_prikey toyX toy_params 1000 (blank_mono toy_params)
         (private_seed toyX toy_params (bytes_at toy_sk 0 (prikey_seed_len toy_params)) x))) [0%nat; 1%nat].
Lemma toy_signs_b : signs toyX toy_params 80 toy_sk [1; 2; 4] (repeat 3 (sizeof_sign toy_params)) toy_sig80b 4 toy_rng80.
Proof.
  apply (proj1 (C40_sign toyX toy_params toy_wf toyX_lawful 80 toy_sk [1; 2; 4] (repeat 3 (sizeof_sign toy_params)) toy_sig80b 4 toy_rng80
    eq_refl (repeat_length _ _) (bytes_of_check (repeat 3 (sizeof_sign toy_params)) eq_refl) (bytes_of_check [1; 2; 4] eq_refl)) 1000%nat toy_junk).
  exact toy_sign_run_b.
Qed.

Lemma toy_mons_private x Q : nth_error toy_mons x = Some Q ->
  monomial_of toyX toy_params (private_seed toyX toy_params (bytes_at toy_sk 0 (prikey_seed_len toy_params)) x) (m_perm Q) (m_coef Q).
Proof.
  intros E. apply (expand_monomial_of toyX toy_params toy_wf toyX_lawful 1000 (blank_mono toy_params)); [apply blank_mono_mem|].
  destruct x as [|[|x]]; [| |destruct x; discriminate]; injection E as <-; vm_compute; reflexivity.
Qed.

Example C62_example :
  attack_round toyX toy_params 1000 toy_pk toy_sig80 toy_sig80b 4 = Ok (2, [(62%nat, 107, 79); (57%nat, 50, 42); (59%nat, 69, 22)]) /\
  Forall (belongs (m_perm (nth 1 toy_mons (blank_mono toy_params))) (m_coef (nth 1 toy_mons (blank_mono toy_params)))) [(62%nat, 107, 79); (57%nat, 50, 42); (59%nat, 69, 22)] /\
  attack_round toyX toy_params 1000 toy_pk toy_sig80b toy_sig80 3 = Ok (1, [(53%nat, 13, 94); (124%nat, 116, 63); (106%nat, 115, 34)]) /\
  Forall (belongs (m_perm (nth 0 toy_mons (blank_mono toy_params))) (m_coef (nth 0 toy_mons (blank_mono toy_params)))) [(53%nat, 13, 94); (124%nat, 116, 63); (106%nat, 115, 34)] /\
  attack_round toyX toy_params 1000 toy_pk toy_sig80b toy_sig80 4 = Ok (0, []).
Proof.
  split; [vm_compute; reflexivity|]. split; [repeat constructor|]. split; [vm_compute; reflexivity|]. split; [repeat constructor|]. vm_compute. reflexivity.
Qed.

(** The hypotheses of [C62_attack] hold of these two signatures, and column 57 is one of the named columns. *)
Example C62_attack_example : exists f, forall fuel, (f <= fuel)%nat ->
  exists Q, attack toyX toy_params fuel toy_pk toy_sig80 toy_sig80b 2 = Ok Q /\ nth 57 (m_perm Q) 0 = 50 /\ nth 57 (m_coef Q) 0 = 42.
Proof.
  destruct (C62_attack toyX toy_params toy_wf toyX_lawful _ _ _ _ C39_example _ _ _ _ _ _ _ _ _ _ _
    (repeat_length _ _) (bytes_of_check (repeat 3 (sizeof_sign toy_params)) eq_refl) (bytes_of_check toy_msg eq_refl)
    (repeat_length _ _) (bytes_of_check (repeat 3 (sizeof_sign toy_params)) eq_refl) (bytes_of_check [1; 2; 4] eq_refl) C40_example toy_signs_b) as (f & H).
  exists f. intros fuel Hf.
  assert (E : challenge_of toyX toy_params (bytes_at toy_sig80 (off_digest toy_params) (hash_len toy_params)) [0; 0; 2; 1; 0; 0])
    by (apply toy_challenge_of; vm_compute; reflexivity).
  assert (E' : challenge_of toyX toy_params (bytes_at toy_sig80b (off_digest toy_params) (hash_len toy_params)) [0; 0; 2; 0; 2; 0])
    by (apply toy_challenge_of; vm_compute; reflexivity).
  destruct (H fuel _ _ Hf E E' 2 (m_perm (nth 1 toy_mons (blank_mono toy_params))) (m_coef (nth 1 toy_mons (blank_mono toy_params))) ltac:(cbn; lia) (toy_mons_private 1 _ eq_refl))
    as (Q & EQ & _ & _ & HQ). exists Q. split; auto.
  destruct (HQ 57%nat) as (HN & _). { apply Nat.ltb_lt. vm_compute. reflexivity. }
  apply HN. exists 4%nat, 1%nat. split; [apply Nat.ltb_lt; reflexivity|]. split; [apply Nat.ltb_lt; reflexivity|]. split; [reflexivity|]. split; [reflexivity|]. vm_compute. reflexivity.
Qed.

(** With the two private monomials and no secret key: the same signature, byte for byte. *)
Example C62_forge_example :
  exists f, forall fuel junk, (f <= fuel)%nat ->
    forge toyX toy_params fuel junk toy_pk toy_mons 80 toy_msg (repeat 3 (sizeof_sign toy_params)) = Ok (toy_sig80, 2%nat, toy_rng80) /\
    LESS_verify toyX toy_params fuel junk toy_pk toy_msg toy_sig80 = Ok 1.
Proof.
  apply (C62_forge toyX toy_params toy_wf toyX_lawful _ _ _ _ C39_example toy_mons eq_refl toy_mons_private); auto using repeat_length, C40_example.
  - apply bytes_of_check. vm_compute. reflexivity.
  - apply bytes_of_check. reflexivity.
Qed.

Print Assumptions C62_round.
Print Assumptions C62_attack.
Print Assumptions C62_forge.
