(** Key generation and signing: memory safety and what they produce. *)
From Coq Require Import Permutation Setoid.
From Verif Require Import Base BaseLemmas Params ParamsProofs Fq FqProofs EnumProofs LinAlg Prim Samplers
  Monomial Codes SeedTree Utils Less RrefProofs LexProofs SortProofs MonoProofs ActionProofs BitCodec CodecProofs
  RrefCodec SamplerProofs SeedTreeProofs FuelProofs RoundProofs VerifyProofs.

Definition act0 : action := {| a_perm := []; a_coef := [] |}.

Section S.
Variable X : prim.
Variable p : params.
Hypothesis wf : wf_params p.
Hypothesis LX : lawful X (hash_len p).
Notation N := (pN p).
Notation K := (pK p).
Notation w := (pN p - pK p)%nat.
Notation L := (num_leaves p).
Notation nn := (num_nodes p).
Notation slen := (seed_len p).

Lemma private_seeds_spec n st : length (private_seeds X p n st) = n.
Proof.
  revert st. induction n as [|n IH]; intros st; [auto|]. cbn [private_seeds].
  destruct (x_squeeze X (prikey_seed_len p) st) as [s0 st0]. cbn [length]. rewrite IH. auto.
Qed.

Lemma squeeze_ok n st : length (fst (x_squeeze X n st)) = n /\ bytes (fst (x_squeeze X n st)).
Proof. split. apply (law_sq_len _ _ LX). apply (law_sq_bytes _ _ LX). Qed.

(** *** Key generation *)
Definition key_component (fuel : nat) (seeds : list (list Z)) (fullG : mat) (pk : list Z) (x : nat) : Prop :=
  exists Qinv G, sampled X p fuel (nth x seeds []) Qinv /\ key_rel p fullG Qinv G /\
    decodesG p (pk_chunk p pk x) G /\ G_ok p G /\ (exists pv, is_rref K N (ent G) pv) /\ encodesG p (pk_chunk p pk x) G.

Record honest_key (fuel : nat) (sk pk : list Z) : Prop := {
  hk_ex : exists csk g0seed c fullG,
    sk = csk ++ g0seed /\ length csk = prikey_seed_len p /\ length g0seed = slen /\
    sampledG X p fuel g0seed c fullG /\
    length pk = sizeof_pk p /\ bytes pk /\ bytes sk /\ pk_seed p pk = g0seed /\
    forall x, (x < p_nk p - 1)%nat ->
      key_component fuel (private_seeds X p (p_nk p - 1) (x_init X csk)) fullG pk x }.

Lemma keygen_component (F : Prop) fuel junk fullG sd buf :
  (forall r, mono_mem p r -> monomial_expand X p fuel r sd = NoFuel -> F) -> G_ok p fullG -> bytes buf -> length buf = rref_bytes p ->
  gp F (Qinv <- monomial_mat_seed_expand_prikey X p fuel (junk_monomial p junk 4) sd ;;
      Q <- monomial_mat_inv p (junk_monomial p junk 6) Qinv ;;
      R <- generator_monomial_mul p (junk_mat junk 8 K N) fullG Q ;;
      ' (_, R', piv) <- generator_RREF p R (repeat 0 N) ;;
      compress_rref p buf R' piv)
  (fun b => length b = rref_bytes p /\ bytes b /\ exists Qinv G, sampled X p fuel sd Qinv /\ key_rel p fullG Qinv G /\
      decodesG p b G /\ G_ok p G /\ (exists pv, is_rref K N (ent G) pv) /\ encodesG p b G).
Proof.
  intros HF (G1 & G2 & G3) HB HL. pose proof (wf_K p wf) as HK. unfold monomial_mat_seed_expand_prikey.
  eapply gp_bind. { apply wp_gp; [apply expand_sampled; auto; apply junk_monomial_mem|]. apply HF. apply junk_monomial_mem. }
  intros Qinv HQ. pose proof (proj1 HQ) as HQok. apply gp_okp.
  eapply okp_bind. { apply monomial_mat_inv_spec; eauto. apply junk_monomial_mem. }
  intros Q (Q1 & Q2 & Q3).
  eapply okp_bind. { apply generator_monomial_mul_spec; auto. apply junk_mat_shape. }
  intros R (R1 & R2 & R3).
  assert (BQ : bij N (pf (m_perm Qinv))) by (apply perm_list_bij; apply (mo_perm p Qinv HQok)).
  assert (RM : forall i j, (i < K)%nat -> (j < N)%nat ->
    ent R i j == fq_inv (nthZ (m_coef Qinv) j) * ent fullG i (pf (m_perm Qinv) j)).
  { intros i j Hi Hj. rewrite <- (Q2 j) at 1 by auto. rewrite R3 by (auto; apply BQ; auto). rewrite Q3 by auto. reflexivity. }
  eapply okp_bind. { apply generator_RREF_spec; auto. lia. }
  intros [[ret G] piv] (J1 & J2 & J3 & J4).
  destruct J4 as [(_ & pv & J5 & J6)|(_ & J4)].
  2:{ exfalso. apply J4. apply full_rank_cols with (A := ent fullG) (g := pf (m_perm Qinv))
        (e := fun j => fq_inv (nthZ (m_coef Qinv) j)); auto.
      intros a Ha. apply fq_unit_nz. apply fq_unit_inv. apply (mono_coef p); auto. }
  destruct (generator_coding p wf buf G piv pv HB HL J1 J2 J5 J6) as (b & EB & B1 & B2 & B3).
  exists b. split; auto. split; auto. split; auto. exists Qinv, G. split; auto. split.
  { exists (ent R). auto. }
  split; auto. split.
  { split; auto. split; auto. apply rref_full_rank with (piv := pv). auto. }
  split. { exists pv. auto. } apply (generator_encodes p wf buf G pv piv b); auto.
Qed.

Lemma off_sf_fit x : (x < p_nk p - 1)%nat -> (off_sf p x + rref_bytes p <= sizeof_pk p)%nat.
Proof. intros H. unfold off_sf, sizeof_pk. nia. Qed.

Lemma LESS_keygen_gp (F : Prop) fuel junk rng sk pk :
  (let (csk, rng1) := x_squeeze X (prikey_seed_len p) rng in
   (forall r, rref_mem p r -> generator_SF_seed_expand X p fuel r (fst (x_squeeze X slen rng1)) = NoFuel -> F) /\
   (forall x r, (x < p_nk p - 1)%nat -> mono_mem p r ->
      monomial_expand X p fuel r (nth x (private_seeds X p (p_nk p - 1) (x_init X csk)) []) = NoFuel -> F)) ->
  length sk = sizeof_sk p -> length pk = sizeof_pk p -> bytes pk ->
  gp F (LESS_keygen X p fuel junk rng sk pk) (fun '(sk', pk', _) => honest_key fuel sk' pk').
Proof.
  intros HF Hsk Hpk HB. unfold LESS_keygen.
  destruct (squeeze_ok (prikey_seed_len p) rng) as [CL CB].
  destruct (x_squeeze X (prikey_seed_len p) rng) as [csk rng1]. cbn [fst] in CL, CB. destruct HF as [HF1 HF2].
  rewrite wr_ok by (rewrite Hsk, CL; unfold sizeof_sk; lia). cbn [bind].
  destruct (squeeze_ok slen rng1) as [GL GB].
  destruct (x_squeeze X slen rng1) as [g0 rng2]. cbn [fst] in GL, GB, HF1.
  set (sk1 := firstn 0 sk ++ csk ++ skipn (0 + length csk) sk).
  assert (LS1 : length sk1 = sizeof_sk p). { unfold sk1. rewrite wr_length; auto. rewrite Hsk, CL. unfold sizeof_sk. lia. }
  rewrite wr_ok by (rewrite LS1, GL; unfold off_sk_g0, sizeof_sk; lia). cbn [bind].
  assert (ESK : firstn (off_sk_g0 p) sk1 ++ g0 ++ skipn (off_sk_g0 p + length g0) sk1 = csk ++ g0).
  { unfold sk1. cbn [firstn app Nat.add]. rewrite firstn_app, CL. unfold off_sk_g0. rewrite Nat.sub_diag.
    cbn [firstn]. rewrite app_nil_r. rewrite <- CL at 1. rewrite firstn_all. f_equal.
    rewrite skipn_all2. { apply app_nil_r. } rewrite app_length, skipn_length, CL, GL, Hsk. unfold sizeof_sk. lia. }
  rewrite ESK. clear ESK LS1 sk1.
  rewrite wr_ok by (rewrite Hpk, GL; apply Nat.le_add_r). cbn [bind].
  set (pk1 := firstn 0 pk ++ g0 ++ skipn (0 + length g0) pk).
  assert (LP1 : length pk1 = sizeof_pk p). { unfold pk1. rewrite wr_length; auto. rewrite Hpk, GL. apply Nat.le_add_r. }
  assert (BP1 : bytes pk1). { apply Forall_wr; auto. }
  assert (SP1 : pk_seed p pk1 = g0).
  { unfold pk1, pk_seed. cbn [firstn app]. rewrite firstn_app, GL, Nat.sub_diag. cbn [firstn]. rewrite app_nil_r.
    rewrite <- GL. apply firstn_all. }
  eapply gp_bind. { apply wp_gp; [apply generator_sampled; auto; apply junk_rref_mem|]. apply HF1. apply junk_rref_mem. }
  intros c (RM & fullG & SG). pose proof SG as (SG1 & SG2 & SG3).
  rewrite SG2 by apply junk_mat_shape. cbn [bind].
  set (seeds := private_seeds X p (p_nk p - 1) (x_init X csk)).
  assert (LS : length seeds = (p_nk p - 1)%nat) by apply private_seeds_spec.
  eapply gp_bind.
  { apply gp_for with (I := fun n pk' => length pk' = sizeof_pk p /\ bytes pk' /\ pk_seed p pk' = g0 /\
      forall x, (x < n)%nat -> key_component fuel seeds fullG pk' x).
    - split; auto. split; auto. split; auto. intros; lia.
    - intros i pk' Hi (I1 & I2 & I3 & I4).
      rewrite (get_ok _ i []) by lia. cbn [bind].
      pose proof (off_sf_fit i ltac:(lia)) as FIT.
      set (buf := firstn (rref_bytes p) (skipn (off_sf p i) pk')).
      assert (BB : bytes buf) by (apply Forall_firstn, Forall_skipn; auto).
      assert (BL : length buf = rref_bytes p) by (unfold buf; rewrite firstn_length, skipn_length; lia).
      pose proof (keygen_component F fuel junk fullG (nth i seeds []) buf (fun r => HF2 i r ltac:(lia)) SG3 BB BL) as KC.
      destruct (monomial_mat_seed_expand_prikey X p fuel (junk_monomial p junk 4) (nth i seeds [])) as [Qinv| |]; cbn [bind] in *; auto.
      destruct (monomial_mat_inv p (junk_monomial p junk 6) Qinv) as [Q| |]; cbn [bind] in *; auto.
      destruct (generator_monomial_mul p (junk_mat junk 8 K N) fullG Q) as [R| |]; cbn [bind] in *; auto.
      destruct (generator_RREF p R (repeat 0 N)) as [[[ret R'] piv]| |]; cbn [bind] in *; auto.
      rewrite rd_ok by lia. cbn [bind]. fold buf.
      destruct (compress_rref p buf R' piv) as [b| |]; cbn [bind gp] in *; auto.
      destruct KC as (B1 & B2 & B3).
      rewrite wr_ok by lia. cbn [gp].
      set (pk2 := firstn (off_sf p i) pk' ++ b ++ skipn (off_sf p i + length b) pk').
      assert (L2 : length pk2 = sizeof_pk p) by (unfold pk2; rewrite wr_length; lia).
      split; auto. split. { apply Forall_wr; auto. }
      split. { rewrite <- I3. unfold pk_seed. rewrite <- (skipn_O pk2), <- (skipn_O pk').
        unfold pk2. apply (slice_wr_other _ _ _ _ _ 0); [lia|]. left. unfold off_sf. lia. }
      intros x Hx. destruct (Nat.eq_dec x i) as [->|Ne].
      + assert (EC : pk_chunk p pk2 i = b).
        { unfold pk_chunk. rewrite <- B1. unfold pk2. rewrite slice_wr_same by lia. auto. }
        unfold key_component. rewrite EC. exact B3.
      + assert (EC : pk_chunk p pk2 x = pk_chunk p pk' x).
        { unfold pk_chunk, pk2. apply (slice_wr_other _ _ _ _ _ 0). lia.
          rewrite B1. unfold off_sf. destruct (Nat.lt_ge_cases x i); [left|right]; nia. }
        unfold key_component. rewrite EC. exact (I4 x ltac:(lia)). }
  intros pk2 (P1 & P2 & P3 & P4). cbn [gp]. constructor. exists csk, g0, c, fullG. cbn [Nat.add] in P4.
  split; [auto|]. split; [auto|]. split; [auto|]. split; [auto|]. split; [auto|]. split; [auto|]. split; [|auto].
  apply Forall_app. auto.
Qed.

Lemma LESS_keygen_spec fuel junk rng sk pk : length sk = sizeof_sk p -> length pk = sizeof_pk p -> bytes pk ->
  wp (LESS_keygen X p fuel junk rng sk pk) (fun '(sk', pk', _) => honest_key fuel sk' pk').
Proof.
  intros H1 H2 H3. apply gp_wp. apply LESS_keygen_gp; auto. destruct (x_squeeze X (prikey_seed_len p) rng). auto.
Qed.

Lemma honest_pk_wf fuel sk pk : honest_key fuel sk pk -> pk_wf p pk.
Proof.
  intros [(csk & g0 & c & fullG & H1 & H2 & H3 & H4 & H5 & H6 & H7 & H8 & H9)]. split; auto.
  intros x Hx. destruct (H9 x Hx) as (Q & G & A1 & A2 & A3 & A4 & _). exists G. auto.
Qed.

(** *** Commitments *)
Definition commit_round (fuel : nat) (tree : list (list Z)) (salt : list Z) (fullG : mat) (t : nat) (V : mat) (a : action) : Prop :=
  exists Qt, sampled X p fuel (nth (L - 1 + t) tree [] ++ salt ++ round_bytes t) Qt /\ prep_rel p fullG Qt V a.

Lemma sign_commit_spec (F : Prop) fuel junk tree salt fullG :
  (forall t r, (t < pT p)%nat -> mono_mem p r ->
     monomial_expand X p fuel r (nth (L - 1 + t) tree [] ++ salt ++ round_bytes t) = NoFuel -> F) -> tree_mem p tree -> G_ok p fullG ->
  gp F (sign_commit X p fuel junk tree salt fullG) (fun '(h, acts) => length acts = pT p /\
    exists Vs, length Vs = pT p /\ h = fold_left (absorbV X) Vs (h_init X) /\
      forall t, (t < pT p)%nat -> commit_round fuel tree salt fullG t (nth t Vs []) (nth t acts act0)).
Proof.
  intros HF HT HG. unfold sign_commit.
  eapply gp_bind.
  { apply gp_for with (I := fun n '(h, V, acts, Qt) => shape K w V /\ length acts = pT p /\ Forall (act_mem p) acts /\
      mono_mem p Qt /\ exists Vs, length Vs = n /\ h = fold_left (absorbV X) Vs (h_init X) /\
      forall t, (t < n)%nat -> commit_round fuel tree salt fullG t (nth t Vs []) (nth t acts act0)).
    - split. { apply junk_mat_shape. } split. { apply repeat_length. } split.
      { apply Forall_forall. intros x Hx. apply repeat_spec in Hx. subst. apply junk_action_mem. }
      split. { apply junk_monomial_mem. } exists []. split; auto. split; auto. intros; lia.
    - intros i [[[h V] acts] Qt] Hi (I1 & I2 & I3 & I4 & Vs & I5 & I6 & I7).
      assert (HL : (L - 1 + i < nn)%nat). { pose proof (T_lt_L p wf). pose proof (nn_L p). lia. }
      rewrite (get_ok _ (L - 1 + i)%nat []) by (rewrite (shape_len _ _ _ HT); auto). cbn [bind].
      unfold monomial_mat_seed_expand_salt_rnd.
      eapply gp_bind. { apply wp_gp; [apply expand_sampled; auto|]. apply HF; auto. lia. }
      intros Q HQ. rewrite (get_ok _ i act0) by lia. cbn [bind]. apply gp_okp.
      eapply okp_bind.
      { apply prep_round; auto. rewrite Forall_forall in I3. apply I3. apply nth_In. lia. apply HQ. }
      intros [V' a'] HP. rewrite set_ok by lia. cbn [bind]. apply okp_ok.
      split. { destruct HP as (_ & M & R & pv & fl & _ & _ & _ & _ & _ & D & _). apply D. }
      split. { rewrite upd_length. auto. } split. { apply Forall_upd; auto. apply HP. }
      split. { apply mono_ok_mem. apply HQ. }
      exists (Vs ++ [V']). split. { rewrite app_length. cbn. lia. } split. { rewrite fold_left_app. cbn. rewrite <- I6. auto. }
      intros t Ht. destruct (Nat.eq_dec t i) as [->|].
      + rewrite nth_upd_same by lia. rewrite app_nth2, I5, Nat.sub_diag by lia. cbn [nth]. exists Q. auto.
      + rewrite nth_upd_other by lia. rewrite app_nth1 by lia. apply I7. lia. }
  intros [[[h V] acts] Qt] (I1 & I2 & I3 & I4 & I5). cbn [gp]. split; auto.
Qed.

(** *** Responses *)
Definition response (fuel : nat) (seeds : list (list Z)) (acts : list action) (fws sig : list Z) (t : nat) : Prop :=
  exists Q b, sampled X p fuel (nth (Z.to_nat (nth t fws 0 - 1)) seeds []) Q /\
    resp_rel p 1 (nth t acts act0) Q b /\ act_ok p b /\ decodes p (sig_chunk p sig (cnt (nz fws) t)) b /\
    encodes p (sig_chunk p sig (cnt (nz fws) t)) b.

Lemma off_monom_fit u : (u < pW p)%nat -> (off_monom p u + mono_bytes p <= off_digest p)%nat.
Proof. intros H. unfold off_monom, off_digest. nia. Qed.

Lemma sign_respond_spec (F : Prop) fuel junk seeds acts fws sig :
  (forall t r, (t < pT p)%nat -> nz fws t = true -> mono_mem p r ->
     monomial_expand X p fuel r (nth (Z.to_nat (nth t fws 0 - 1)) seeds []) = NoFuel -> F) ->
  challenge_ok p fws -> length seeds = (p_nk p - 1)%nat ->
  length acts = pT p -> (forall t, (t < pT p)%nat -> act_ok p (nth t acts act0)) ->
  bytes sig -> length sig = sizeof_sign p ->
  gp F (sign_respond X p fuel junk seeds acts fws sig) (fun sig' => length sig' = sizeof_sign p /\ bytes sig' /\
    (forall o n, (o + n <= hash_len p \/ off_digest p <= o)%nat -> firstn n (skipn o sig') = firstn n (skipn o sig)) /\
    forall t, (t < pT p)%nat -> nz fws t = true -> response fuel seeds acts fws sig' t).
Proof.
  intros HF HC LS LA HA HB HL. pose proof HC as (C1 & C2 & C3). unfold sign_respond.
  eapply gp_bind.
  { apply gp_for with (I := fun i '(s, em, act) => length s = sizeof_sign p /\ bytes s /\ em = cnt (nz fws) i /\ act_mem p act /\
     (forall o n, (o + n <= hash_len p \/ off_digest p <= o)%nat -> firstn n (skipn o s) = firstn n (skipn o sig)) /\
      forall t, (t < i)%nat -> nz fws t = true -> response fuel seeds acts fws s t).
    - split; auto. split; auto. split; auto. split. { apply junk_action_mem. } split; auto. intros; lia.
    - intros i [[s em] act] Hi (I1 & I2 & -> & I4 & I5 & I6).
      rewrite (get_ok _ i 0) by lia. cbn [bind].
      assert (Hcnt : cnt (nz fws) (S i) = (cnt (nz fws) i + (if nz fws i then 1 else 0))%nat) by apply cnt_S.
      destruct (nth i fws 0 =? 0) eqn:E0.
      + assert (En : nz fws i = false) by (unfold nz; rewrite E0; auto).
        cbn [gp]. rewrite En, Nat.add_0_r in Hcnt. rewrite Hcnt. split; auto. split; auto. split; auto. split; auto. split; auto.
        intros t Ht Hn. destruct (Nat.eq_dec t i) as [->|]; [congruence|]. apply I6; auto. lia.
      + assert (En : nz fws i = true) by (unfold nz; rewrite E0; auto).
        pose proof (key_index p fws HC i ltac:(lia) En) as KI. pose proof (used_lt p fws HC i ltac:(lia) En) as UL.
        rewrite (get_ok _ _ []) by lia. cbn [bind]. unfold monomial_mat_seed_expand_prikey.
        eapply gp_bind. { apply wp_gp; [apply expand_sampled; auto; apply junk_monomial_mem|]. apply (HF i); auto. lia. apply junk_monomial_mem. }
        intros Q HQ. rewrite (get_ok _ i act0) by lia. cbn [bind]. apply gp_okp.
        eapply okp_bind. { apply monomial_compose_action_spec; auto. apply junk_monomial_mem. apply HQ. apply HA. lia. }
        intros b (B1 & B2). destruct (Nat.ltb_spec (cnt (nz fws) i) (pW p)); [|lia].
        pose proof (off_monom_fit _ UL) as FIT.
        assert (FIT2 : (off_digest p <= sizeof_sign p)%nat) by (unfold sizeof_sign, off_seeds, off_digest; lia).
        rewrite rd_ok by lia. cbn [bind].
        set (old := firstn (mono_bytes p) (skipn (off_monom p (cnt (nz fws) i)) s)).
        assert (OB : bytes old) by (apply Forall_firstn, Forall_skipn; auto).
        assert (OL : length old = mono_bytes p) by (unfold old; rewrite firstn_length, skipn_length; lia).
        destruct (action_coding p wf old b OB OL B1) as (buf & EB & D1 & D2 & D3). rewrite EB. cbn [bind].
        pose proof (action_encodes p wf old b buf OB OL B1 EB) as D4. rewrite wr_ok by lia. cbn [bind]. apply okp_ok.
        set (s' := firstn (off_monom p (cnt (nz fws) i)) s ++ buf ++ skipn (off_monom p (cnt (nz fws) i) + length buf) s).
        assert (Ls' : length s' = sizeof_sign p) by (unfold s'; rewrite wr_length; lia).
        split; auto. split. { apply Forall_wr; auto. } split. { rewrite Hcnt, En. lia. } split. { apply B1. }
        split. { intros o n Ho. rewrite <- I5 by auto. unfold s'. apply (slice_wr_other _ _ _ _ _ 0). lia.
          rewrite D1. destruct Ho as [Ho|Ho]; [left|right]; [|lia]. unfold off_monom. lia. }
        intros t Ht Hn. destruct (Nat.eq_dec t i) as [->|Ne].
        * exists Q, b. split; auto. split.
          { intros k s0 Hk Hs Ek. destruct (B2 k s0 Hk Hs Ek) as [X1 X2]. split; auto. rewrite X2, Z.mul_1_l. reflexivity. }
          assert (EC : sig_chunk p s' (cnt (nz fws) i) = buf).
          { unfold sig_chunk. rewrite <- D1 at 1. unfold s'. rewrite slice_wr_same by lia. auto. }
          rewrite EC. auto.
        * unfold response. assert (EC : sig_chunk p s' (cnt (nz fws) t) = sig_chunk p s (cnt (nz fws) t)).
          2:{ rewrite EC. exact (I6 t ltac:(lia) Hn). }
          unfold sig_chunk, s'. apply (slice_wr_other _ _ _ _ _ 0). lia.
          assert (cnt (nz fws) t < cnt (nz fws) i)%nat by (apply cnt_lt; auto; lia).
          left. unfold off_monom. nia. }
  intros [[s em] act] (I1 & I2 & I3 & I4 & I5 & I6). cbn [gp Nat.add] in *. split; auto.
Qed.

(** *** Signing *)
Definition sk_seeds (sk : list Z) : list (list Z) :=
  private_seeds X p (p_nk p - 1) (x_init X (firstn (prikey_seed_len p) sk)).
Definition sk_g0 (sk : list Z) : list Z := firstn slen (skipn (off_sk_g0 p) sk).

Record signed (fuel : nat) (sk m sig : list Z) (num : nat) (tree : list (list Z)) (c : rref_mat) (fullG : mat)
   (acts : list action) (Vs : list mat) (fws fl : list Z) : Prop := {
  sg_len : length sig = sizeof_sign p;
  sg_bytes : bytes sig;
  sg_tree : tree_mem p tree;
  sg_treeb : Forall bytes tree;
  sg_gen : tree_gen X p (sig_salt p sig) tree;
  sg_G : sampledG X p fuel (sk_g0 sk) c fullG;
  sg_Vs : length Vs = pT p;
  sg_commit : forall t, (t < pT p)%nat ->
     commit_round fuel tree (sig_salt p sig) fullG t (nth t Vs []) (nth t acts act0);
  sg_digest : sig_digest p sig =
     h_final X (h_absorb X (h_absorb X (fold_left (absorbV X) Vs (h_init X)) m) (sig_salt p sig));
  sg_fws : challenge_ok p fws;
  sg_chal : forall f, (fuel <= f)%nat ->
     expand_digest_to_fixed_weight X p f (repeat 0 (pT p)) (sig_digest p sig) = Ok fws;
  sg_flags : flags_spec p (to_publish fws) fl;
  sg_num : num = npub p fl;
  sg_max : Z.of_nat num <= max_seeds p;
  sg_maxb : (num * slen <= Z.to_nat (p_maxbytes p))%nat;
  sg_seeds : firstn (num * slen) (skipn (off_seeds p) sig) = pubseeds fl tree nn;
  sg_count : nth (off_seeds p + num * slen) sig 0 = Z.of_nat num;
  sg_zero : forall k, (num * slen < k < Z.to_nat (p_maxbytes p))%nat -> nth (off_seeds p + k) sig 0 = 0;
  sg_resp : forall t, (t < pT p)%nat -> nz fws t = true -> response fuel (sk_seeds sk) acts fws sig t }.

(** Signing does not run out of fuel unless one of the samplers does. *)
Definition sign_stuck (F : Prop) (fuel : nat) (junk : nat -> nat -> Z) (rng : xstate X) (sk m : list Z) : Prop :=
  let (ephem, rng1) := x_squeeze X slen rng in
  let (salt, _) := x_squeeze X (hash_len p) rng1 in
  (forall r, rref_mem p r -> generator_SF_seed_expand X p fuel r (sk_g0 sk) = NoFuel -> F) /\
  (forall tree t r, generate_seed_tree_from_root X p (repeat (repeat 0 slen) nn) ephem salt = Ok tree ->
     (t < pT p)%nat -> mono_mem p r ->
     monomial_expand X p fuel r (nth (L - 1 + t) tree [] ++ salt ++ round_bytes t) = NoFuel -> F) /\
  (forall tree c fullG h acts, generate_seed_tree_from_root X p (repeat (repeat 0 slen) nn) ephem salt = Ok tree ->
     sampledG X p fuel (sk_g0 sk) c fullG ->
     sign_commit X p fuel junk tree salt fullG = Ok (h, acts) ->
     let digest := h_final X (h_absorb X (h_absorb X h m) salt) in
     (expand_digest_to_fixed_weight X p fuel (repeat 0 (pT p)) digest = NoFuel -> F) /\
     (forall fws t r, expand_digest_to_fixed_weight X p fuel (repeat 0 (pT p)) digest = Ok fws ->
        (t < pT p)%nat -> nz fws t = true -> mono_mem p r ->
        monomial_expand X p fuel r (nth (Z.to_nat (nth t fws 0 - 1)) (sk_seeds sk) []) = NoFuel -> F)).

Lemma gp_keep {A} (F : Prop) (m : res A) P : gp F m P -> gp F m (fun a => m = Ok a /\ P a).
Proof. destruct m; cbn; auto. Qed.

(** The random bytes consumed, in order, and where they end up. *)
Definition drawn (rng rng' : xstate X) (sig : list Z) (tree : list (list Z)) : Prop :=
  let (ephem, rng1) := x_squeeze X slen rng in
  let (salt, rng2) := x_squeeze X (hash_len p) rng1 in
  sig_salt p sig = salt /\ rng' = rng2 /\ generate_seed_tree_from_root X p (repeat (repeat 0 slen) nn) ephem salt = Ok tree.

(** The last byte is written only if all the seed storage is used. *)
Definition kept (sig sig' : list Z) (num : nat) : Prop :=
  (num * slen < Z.to_nat (p_maxbytes p))%nat ->
  nth (off_seeds p + Z.to_nat (p_maxbytes p)) sig' 0 = nth (off_seeds p + Z.to_nat (p_maxbytes p)) sig 0.

Lemma LESS_sign_drawn (F : Prop) fuel junk rng sk m sig : sign_stuck F fuel junk rng sk m ->
  length sk = sizeof_sk p -> length sig = sizeof_sign p -> bytes sig ->
  gp F (LESS_sign X p fuel junk rng sk m sig) (fun '(sig', num, rng') =>
    exists tree c fullG acts Vs fws fl, signed fuel sk m sig' num tree c fullG acts Vs fws fl /\ drawn rng rng' sig' tree /\
      kept sig sig' num).
Proof.
  unfold sign_stuck, drawn, kept. intros HF Hsk Hsig HB. unfold LESS_sign.
  rewrite rd_ok by (rewrite Hsk; apply Nat.le_add_r). cbn [bind skipn]. fold (sk_seeds sk).
  destruct (squeeze_ok slen rng) as [EL EB].
  destruct (x_squeeze X slen rng) as [ephem rng1]. cbn [fst] in EL, EB.
  destruct (squeeze_ok (hash_len p) rng1) as [SL SB].
  destruct (x_squeeze X (hash_len p) rng1) as [salt rng2]. cbn [fst] in SL, SB. destruct HF as (HF1 & HF3 & HF4).
  assert (OFF : (hash_len p <= off_digest p)%nat) by (unfold off_digest; lia).
  assert (OFF2 : (off_digest p + hash_len p = off_seeds p)%nat) by (unfold off_seeds, off_digest; lia).
  assert (OFF3 : (off_seeds p + seed_storage_len p = sizeof_sign p)%nat) by reflexivity.
  assert (OFF4 : (seed_storage_len p = Z.to_nat (p_maxbytes p) + 1)%nat) by reflexivity.
  rewrite wr_ok by lia. cbn [bind].
  set (sig1 := firstn 0 sig ++ salt ++ skipn (0 + length salt) sig).
  assert (L1 : length sig1 = sizeof_sign p) by (unfold sig1; rewrite wr_length; lia).
  assert (B1 : bytes sig1) by (apply Forall_wr; auto).
  assert (S1 : firstn (hash_len p) (skipn 0 sig1) = salt).
  { unfold sig1. rewrite <- SL at 1. apply slice_wr_same. lia. }
  assert (TZ : tree_mem p (repeat (repeat 0 slen) nn)) by apply zero_mat_shape.
  assert (TB : Forall bytes (repeat (repeat 0 slen) nn)).
  { apply Forall_forall. intros x Hx. apply repeat_spec in Hx. subst x. apply Forall_forall. intros y Hy.
    apply repeat_spec in Hy. subst y. unfold is_byte. lia. }
  destruct (generate_seed_tree_spec X p (repeat 0 (pT p)) (repeat_length 0 (pT p)) (repeat (repeat 0 slen) nn) ephem salt LX TZ EL EB TB)
    as (tree & ET & T1 & T2 & T3 & T4). rewrite ET. cbn [bind].
  rewrite rd_ok by (rewrite Hsk; apply Nat.le_refl). cbn [bind]. fold (sk_g0 sk).
  eapply gp_bind. { apply wp_gp; [apply generator_sampled; auto; apply junk_rref_mem|]. apply HF1. apply junk_rref_mem. }
  intros c (RM & fullG & SG). pose proof SG as (SG1 & SG2 & SG3).
  rewrite SG2 by apply junk_mat_shape. cbn [bind].
  eapply gp_bind. { apply gp_keep. apply sign_commit_spec; eauto. }
  intros [h acts] (ESC & LA & Vs & LV & -> & HC). cbv zeta. destruct (HF4 tree c fullG _ acts ET SG ESC) as [HF5 HF6]. clear HF4.
  set (digest := h_final X (h_absorb X (h_absorb X (fold_left (absorbV X) Vs (h_init X)) m) salt)) in *.
  assert (DL : length digest = hash_len p) by apply (law_h_len _ _ LX).
  assert (DB : bytes digest) by apply (law_h_bytes _ _ LX).
  rewrite wr_ok by lia. cbn [bind].
  set (sig2 := firstn (off_digest p) sig1 ++ digest ++ skipn (off_digest p + length digest) sig1).
  assert (L2 : length sig2 = sizeof_sign p) by (unfold sig2; rewrite wr_length; lia).
  assert (B2 : bytes sig2) by (apply Forall_wr; auto).
  assert (S2 : firstn (hash_len p) (skipn 0 sig2) = salt).
  { rewrite <- S1. unfold sig2. apply (slice_wr_other _ _ _ _ _ 0); lia. }
  assert (D2 : firstn (hash_len p) (skipn (off_digest p) sig2) = digest).
  { unfold sig2. rewrite <- DL at 1. apply slice_wr_same. lia. }
  assert (WD := expand_digest_spec X p wf fuel digest).
  destruct (expand_digest_to_fixed_weight X p fuel (repeat 0 (pT p)) digest) as [fws| |] eqn:ED; cbn in WD; cbn [bind gp]; auto.
  assert (ED' : forall f, (fuel <= f)%nat -> expand_digest_to_fixed_weight X p f (repeat 0 (pT p)) digest = Ok fws).
  { intros f Hf. eapply simr_eq; [|exact ED]. apply expand_digest_sim. auto. }
  rewrite wr_ok by (rewrite repeat_length; lia). cbn [bind].
  set (zs := repeat 0 (Z.to_nat (p_maxbytes p))).
  assert (ZL : length zs = Z.to_nat (p_maxbytes p)) by apply repeat_length.
  set (sig3 := firstn (off_seeds p) sig2 ++ zs ++ skipn (off_seeds p + length zs) sig2).
  assert (L3 : length sig3 = sizeof_sign p) by (unfold sig3; rewrite wr_length; lia).
  assert (B3 : bytes sig3).
  { apply Forall_wr; auto. apply Forall_forall. intros y Hy. apply repeat_spec in Hy. subst y. unfold is_byte. lia. }
  assert (S3 : firstn (hash_len p) (skipn 0 sig3) = salt).
  { rewrite <- S2. unfold sig3. apply (slice_wr_other _ _ _ _ _ 0); lia. }
  assert (D3 : firstn (hash_len p) (skipn (off_digest p) sig3) = digest).
  { rewrite <- D2. unfold sig3. apply (slice_wr_other _ _ _ _ _ 0); lia. }
  rewrite rd_ok by lia. cbn [bind].
  set (stg := firstn (seed_storage_len p) (skipn (off_seeds p) sig3)).
  assert (GL : length stg = seed_storage_len p) by (unfold stg; rewrite firstn_length, skipn_length; lia).
  assert (GB : bytes stg) by (apply Forall_firstn, Forall_skipn; auto).
  destruct (to_publish_ok p fws WD) as (P1 & P2 & P3).
  destruct (seed_tree_path_spec p wf (to_publish fws) P1 P2 tree stg T1 P3 ltac:(lia)) as (fl & FS & _ & ->). cbn [bind].
  pose proof (npub_max p wf (to_publish fws) P1 P2 fl FS P3) as NM.
  pose proof (npub_bytes p wf (to_publish fws) P1 P2 fl FS P3) as NB.
  set (num := npub p fl) in *.
  assert (PL : length (pubseeds fl tree nn) = (num * slen)%nat).
  { unfold num, npub. apply pubseeds_length with (p := p) (ind := to_publish fws); auto. }
  assert (PB : bytes (pubseeds fl tree nn)).
  { unfold pubseeds. apply Forall_concat. apply Forall_forall. intros x Hx. apply in_map_iff in Hx.
    destruct Hx as (i & <- & Hi). apply (enum_lt p (to_publish fws) P1) in Hi. rewrite Forall_forall in T2. apply T2.
    apply nth_In. rewrite (shape_len _ _ _ T1). auto. }
  set (stg1 := pubseeds fl tree nn ++ skipn (num * slen) stg).
  assert (L1s : length stg1 = seed_storage_len p) by (unfold stg1; rewrite app_length, skipn_length, PL; lia).
  assert (B1s : bytes stg1) by (apply Forall_app; split; auto; apply Forall_skipn; auto).
  rewrite wr_ok by lia. cbn [bind].
  set (sig4 := firstn (off_seeds p) sig3 ++ stg1 ++ skipn (off_seeds p + length stg1) sig3).
  assert (L4 : length sig4 = sizeof_sign p) by (unfold sig4; rewrite wr_length; lia).
  assert (B4 : bytes sig4) by (apply Forall_wr; auto).
  assert (S4 : firstn (hash_len p) (skipn 0 sig4) = salt).
  { rewrite <- S3. unfold sig4. apply (slice_wr_other _ _ _ _ _ 0); lia. }
  assert (D4 : firstn (hash_len p) (skipn (off_digest p) sig4) = digest).
  { rewrite <- D3. unfold sig4. apply (slice_wr_other _ _ _ _ _ 0); lia. }
  assert (G4 : firstn (seed_storage_len p) (skipn (off_seeds p) sig4) = stg1).
  { unfold sig4. rewrite <- L1s at 1. apply slice_wr_same. lia. }
  eapply gp_bind.
  { apply sign_respond_spec with (acts := acts); eauto.
    - apply private_seeds_spec.
    - intros t Ht. destruct (HC t Ht) as (Qt & _ & A & _). exact A. }
  intros sig5 (L5 & B5 & O5 & R5).
  rewrite rd_ok by lia. cbn [bind]. rewrite O5 by (right; lia). rewrite G4.
  rewrite set_ok by lia. cbn [bind].
  assert (U8 : u8 (Z.of_nat num) = Z.of_nat num). { apply u8_id. pose proof (wf_max_byte p wf). lia. }
  rewrite U8. set (stg3 := upd stg1 (num * slen) (Z.of_nat num)).
  assert (L3s : length stg3 = seed_storage_len p) by (unfold stg3; rewrite upd_length; auto).
  rewrite wr_ok by lia. cbn [bind gp].
  set (sig6 := firstn (off_seeds p) sig5 ++ stg3 ++ skipn (off_seeds p + length stg3) sig5).
  assert (L6 : length sig6 = sizeof_sign p) by (unfold sig6; rewrite wr_length; lia).
  assert (B6 : bytes sig6).
  { apply Forall_wr; auto. apply Forall_upd; auto. pose proof (wf_max_byte p wf). unfold is_byte. lia. }
  assert (O6 : forall o n, (o + n <= off_seeds p)%nat -> firstn n (skipn o sig6) = firstn n (skipn o sig5)).
  { intros o n Ho. unfold sig6. apply (slice_wr_other _ _ _ _ _ 0); lia. }
  assert (S6 : sig_salt p sig6 = salt).
  { unfold sig_salt. rewrite <- (skipn_O sig6). rewrite O6 by lia. rewrite O5 by (left; lia). auto. }
  assert (D6 : sig_digest p sig6 = digest).
  { unfold sig_digest. rewrite O6 by lia. rewrite O5 by (right; lia). auto. }
  assert (N6 : forall k, (k < seed_storage_len p)%nat -> nth (off_seeds p + k) sig6 0 = nth k stg3 0).
  { intros k Hk. unfold sig6. rewrite nth_wr by lia.
    destruct (Nat.ltb_spec (off_seeds p + k) (off_seeds p)); [lia|].
    destruct (Nat.ltb_spec (off_seeds p + k) (off_seeds p + length stg3)); [|lia]. f_equal. lia. }
  exists tree, c, fullG, acts, Vs, fws, fl. split; [|split; [auto|]].
  2:{ intros Hk. rewrite N6 by lia. unfold stg3. rewrite nth_upd_other by lia. unfold stg1.
    rewrite app_nth2 by lia. rewrite PL, nth_skipn.
    replace (num * slen + (Z.to_nat (p_maxbytes p) - num * slen))%nat with (Z.to_nat (p_maxbytes p)) by lia.
    unfold stg. rewrite nth_firstn by lia. rewrite nth_skipn. set (k := (off_seeds p + Z.to_nat (p_maxbytes p))%nat).
    assert (W : forall l o d, (o + length d <= k)%nat -> (k < length l)%nat -> nth k (firstn o l ++ d ++ skipn (o + length d) l) 0 = nth k l 0).
    { intros l o d Ho Hl. rewrite nth_wr by lia. destruct (Nat.ltb_spec k o); [lia|]. destruct (Nat.ltb_spec k (o + length d)); [lia|]. auto. }
    unfold sig3. rewrite W by lia. unfold sig2. rewrite W by lia. unfold sig1. rewrite W by lia. auto. }
  constructor; auto.
  - rewrite S6. auto.
  - rewrite S6. auto.
  - rewrite S6, D6. auto.
  - rewrite D6. auto.
  - apply (list_ext 0). { rewrite firstn_length, skipn_length, PL. lia. }
    intros i Hi. rewrite firstn_length, skipn_length in Hi. rewrite nth_firstn by lia. rewrite nth_skipn, N6 by lia.
    unfold stg3. rewrite nth_upd_other by lia. unfold stg1. rewrite app_nth1 by lia. auto.
  - rewrite N6 by lia. unfold stg3. apply nth_upd_same. lia.
  - intros k Hk. rewrite N6 by lia. unfold stg3. rewrite nth_upd_other by lia. unfold stg1.
    rewrite app_nth2 by lia. rewrite PL, nth_skipn. replace (num * slen + (k - num * slen))%nat with k by lia.
    unfold stg. rewrite nth_firstn by lia. rewrite nth_skipn. unfold sig3. rewrite nth_wr by lia.
    destruct (Nat.ltb_spec (off_seeds p + k) (off_seeds p)); [lia|].
    destruct (Nat.ltb_spec (off_seeds p + k) (off_seeds p + length zs)); [|lia]. unfold zs. apply nth_repeat.
  - intros t Ht Hn. pose proof (R5 t Ht Hn) as R6. unfold response, sig_chunk in *. rewrite O6. exact R6.
    pose proof (off_monom_fit _ (used_lt p fws WD t Ht Hn)). lia.
Qed.

Lemma LESS_sign_gp (F : Prop) fuel junk rng sk m sig : sign_stuck F fuel junk rng sk m ->
  length sk = sizeof_sk p -> length sig = sizeof_sign p -> bytes sig ->
  gp F (LESS_sign X p fuel junk rng sk m sig) (fun '(sig', num, _) =>
    exists tree c fullG acts Vs fws fl, signed fuel sk m sig' num tree c fullG acts Vs fws fl).
Proof.
  intros H1 H2 H3 H4. eapply gp_mono. { apply LESS_sign_drawn; auto. }
  intros [[sig' num] rng'] (tree & c & fullG & acts & Vs & fws & fl & HS & _ & _). exists tree, c, fullG, acts, Vs, fws, fl. auto.
Qed.

Lemma LESS_sign_spec fuel junk rng sk m sig : length sk = sizeof_sk p -> length sig = sizeof_sign p -> bytes sig ->
  wp (LESS_sign X p fuel junk rng sk m sig) (fun '(sig', num, _) =>
    exists tree c fullG acts Vs fws fl, signed fuel sk m sig' num tree c fullG acts Vs fws fl).
Proof.
  intros H1 H2 H3. apply gp_wp. apply LESS_sign_gp; auto. unfold sign_stuck.
  destruct (x_squeeze X slen rng). destruct (x_squeeze X (hash_len p) x). cbv zeta. auto 10.
Qed.

(** *** Completeness *)

(** The verifier accepts any signature with the salt, digest and published seeds of a produced one
    and whose responses agree with the produced ones up to a common non-zero factor per response. *)
Definition response_scaled (fuel : nat) (seeds : list (list Z)) (acts : list action) (fws sig : list Z) (t : nat) : Prop :=
  exists lam Q b, ~ lam == 0 /\ sampled X p fuel (nth (Z.to_nat (nth t fws 0 - 1)) seeds []) Q /\
    resp_rel p lam (nth t acts act0) Q b /\ act_ok p b /\ decodes p (sig_chunk p sig (cnt (nz fws) t)) b.

Lemma one_nz : ~ 1 == 0.
Proof. intros C. apply cong_eq in C; try discriminate; unfold fq; lia. Qed.

(** The verifier rebuilds, for the rounds that are not challenged, the leaves of the signer. *)
Lemma rebuilt_leaves fs sk m sig num tree c fullG acts Vs fws fl :
  signed fs sk m sig num tree c fullG acts Vs fws fl ->
  forall sig', (off_seeds p + num * slen <= length sig')%nat -> sig_salt p sig' = sig_salt p sig ->
  firstn (num * slen) (skipn (off_seeds p) sig') = pubseeds fl tree nn ->
  forall t0 tr, rebuild_seed_tree_leaves X p (repeat (repeat 0 slen) nn) (to_publish fws)
    (skipn (off_seeds p) sig') (sig_salt p sig') = Ok (t0, tr) ->
  forall t, (t < pT p)%nat -> nz fws t = false -> nth (L - 1 + t) tr [] = nth (L - 1 + t) tree [].
Proof.
  intros [G1 G2 G3 G4 G5 G6 G7 G8 G9 G10 G11 G12 G13 G14 G15 G16 G17 _ _] sig' OS E1 E4 t0 tr ER t Ht Hn.
  destruct (to_publish_ok p fws G10) as (P1 & P2 & P3).
  destruct (rebuild_spec X p wf (to_publish fws) P1 P2 (repeat (repeat 0 slen) nn) (skipn (off_seeds p) sig') (sig_salt p sig') LX
    (zero_mat_shape nn slen) P3) as (fl' & FS & _ & RB).
  { right. intros fl' FS. rewrite skipn_length.
    assert (fl' = fl) by (eapply flags_spec_det; eauto). subst. lia. }
  assert (fl' = fl) by (eapply flags_spec_det; eauto). subst fl'.
  pose proof (okp_eq _ _ _ RB ER) as (_ & _ & RT). subst num. rewrite E1 in RT.
  apply RT; auto.
  - pose proof (T_lt_L p wf). pose proof (nn_L p). lia.
  - rewrite (F_leaf p (to_publish fws) fl FS) by (pose proof (T_lt_L p wf); lia).
    rewrite to_publish_nth by (destruct G10; lia). rewrite Hn. cbn. apply andb_false_r.
Qed.

Lemma honest_g0 fk sk pk fs fv c fullG c' fG : honest_key fk sk pk -> sampledG X p fs (sk_g0 sk) c fullG ->
  sampledG X p fv (pk_seed p pk) c' fG -> c' = c /\ fG = fullG.
Proof.
  intros [(csk & g0 & kc & kG & K1 & K2 & K3 & K4 & K5 & K6 & K7 & K8 & K9)] SG SG'.
  assert (ES1 : sk_g0 sk = g0).
  { unfold sk_g0, off_sk_g0. subst sk. rewrite <- K2. rewrite skipn_app, skipn_all, Nat.sub_diag. cbn [skipn app].
    rewrite firstn_all2 by lia. auto. }
  rewrite ES1 in SG. rewrite K8 in SG'. apply (sampledG_det X p _ _ _ _ _ _ _ SG' SG).
Qed.

(** The rounds of the verifier give the matrices of the signer. *)
Lemma rounds_match fk fs fv sk pk m sig num tree c fullG acts Vs fws fl :
  honest_key fk sk pk -> signed fs sk m sig num tree c fullG acts Vs fws fl ->
  forall sig', (off_seeds p + num * slen <= length sig')%nat -> sig_salt p sig' = sig_salt p sig ->
  firstn (num * slen) (skipn (off_seeds p) sig') = pubseeds fl tree nn ->
  (forall t, (t < pT p)%nat -> nz fws t = true -> response_scaled fs (sk_seeds sk) acts fws sig' t) ->
  forall t0 tr Vs', rebuild_seed_tree_leaves X p (repeat (repeat 0 slen) nn) (to_publish fws)
    (skipn (off_seeds p) sig') (sig_salt p sig') = Ok (t0, tr) ->
  length Vs' = pT p -> (forall t, (t < pT p)%nat -> vround X p fv pk sig' tr fullG fws t (nth t Vs' [])) -> Vs = Vs'.
Proof.
  intros HK HS sig' OS E1 E4 G18 t0 tr Vs' C3 T1 T2.
  pose proof (rebuilt_leaves _ _ _ _ _ _ _ _ _ _ _ _ HS sig' OS E1 E4 t0 tr C3) as TREE.
  destruct HS as [G1 G2 G3 G4 G5 G6 G7 G8 G9 G10 G11 G12 G13 G14 G15 G16 G17 _ _].
  destruct HK as [(csk & g0 & kc & kG & K1 & K2 & K3 & K4 & K5 & K6 & K7 & K8 & K9)].
  assert (ES : sk_g0 sk = g0 /\ firstn (prikey_seed_len p) sk = csk).
  { unfold sk_g0, off_sk_g0. subst sk. rewrite <- K2. rewrite skipn_app, skipn_all, Nat.sub_diag. cbn [skipn app].
    rewrite firstn_all2 by lia. split; auto. rewrite firstn_app, firstn_all, Nat.sub_diag. cbn [firstn]. apply app_nil_r. }
  destruct ES as [ES1 ES2]. unfold sk_seeds in G18. rewrite ES1 in G6. rewrite ES2 in G18.
  destruct (sampledG_det X p _ _ _ _ _ _ _ K4 G6) as [<- <-].
  apply (list_ext []); [exact (eq_trans G7 (eq_sym T1))|]. intros t Ht. apply (fun h => eq_ind _ (fun k => (t < k)%nat) h _ G7) in Ht.
  destruct (G8 t Ht) as (Qt & SQ & PR). specialize (T2 t Ht). unfold vround in T2.
  destruct (nz fws t) eqn:En.
  + destruct T2 as (G & a & D1 & D2 & D3 & D4).
    destruct (G18 t Ht En) as (lam & Q & b & R0 & R1 & R2 & R3 & R4).
    pose proof (decodes_det p _ _ _ D2 R4) as ->.
    destruct (K9 _ (key_index p fws G10 t Ht En)) as (Qi & Gx & M1 & M2 & M3 & M4 & _).
    pose proof (decodesG_det p _ _ _ D1 M3) as ->.
    pose proof (sampled_det X p _ _ _ _ _ M1 R1) as ->.
    symmetry. eapply (chal_match p wf kG Qt (nth t Vs []) (nth t acts act0) Q Gx b (nth t Vs' []) lam); eauto.
    * apply SQ.
    * apply R1.
  + destruct T2 as (Q & a & D1 & D2). rewrite E1, TREE in D1 by auto.
    pose proof (sampled_det X p _ _ _ _ _ D1 SQ) as ->. eapply prep_det; eauto. apply SQ.
Qed.

Lemma sign_verify_gen fk fs fv junk sk pk m sig num tree c fullG acts Vs fws fl :
  honest_key fk sk pk -> signed fs sk m sig num tree c fullG acts Vs fws fl -> (fs <= fv)%nat ->
  forall sig', bytes sig' -> (off_seeds p + num * slen <= length sig')%nat ->
  sig_salt p sig' = sig_salt p sig -> sig_digest p sig' = sig_digest p sig ->
  firstn (num * slen) (skipn (off_seeds p) sig') = pubseeds fl tree nn ->
  (forall t, (t < pT p)%nat -> nz fws t = true -> response_scaled fs (sk_seeds sk) acts fws sig' t) ->
  LESS_verify X p fv junk pk m sig' = Ok 1.
Proof.
  intros HK HS Hf sig' BS' OS E1 E2 E4 G18. pose proof (honest_pk_wf _ _ _ HK) as PW.
  pose proof (rebuilt_leaves _ _ _ _ _ _ _ _ _ _ _ _ HS sig' OS E1 E4) as TREE.
  pose proof HS as [G1 G2 G3 G4 G5 G6 G7 G8 G9 G10 G11 G12 G13 G14 G15 G16 G17 _ _].
  assert (G6' : sampledG X p fs (pk_seed p pk) c fullG).
  { pose proof HK as [(csk & g0 & kc & kG & K1 & K2 & K3 & K4 & K5 & K6 & K7 & K8 & K9)].
    rewrite K8. unfold sk_g0, off_sk_g0 in G6. rewrite <- K2, K1, skipn_app, skipn_all, Nat.sub_diag in G6. cbn [skipn app] in G6.
    rewrite firstn_all2 in G6 by lia. exact G6. }
  assert (V : gp False (LESS_verify X p fv junk pk m sig') (fun r => (r = 1 /\ accepted X p fv pk m sig') \/ (r = 0 /\ rejected X p fv pk m sig'))).
  { apply LESS_verify_gp; auto.
    - lia.
    - right. intros fws' fl' H1 H2. rewrite E2, G11 in H1 by auto. injection H1 as <-.
      assert (fl' = fl) by (destruct (to_publish_ok p fws G10) as (P1 & P2 & P3); eapply flags_spec_det; eauto). subst fl'. rewrite <- G13. auto.
    - rewrite E2, G11 by auto. discriminate.
    - intros r Hr. destruct G6' as (G6' & _). rewrite G6'; auto. discriminate.
    - intros fws' t0 tr t r H1 H2 H3 H4 H5. rewrite E2, G11 in H1 by auto. injection H1 as <-.
      rewrite (TREE _ _ H2) by auto. rewrite E1. destruct (G8 t H3) as (Qt & (_ & SQ) & _). rewrite SQ; auto. discriminate. }
  apply gp_False in V. destruct V as (r & EV & [(-> & _)|(-> & [(fws' & t0 & tr & c' & fG & C1 & C2 & C3 & C4 & C5)])]); auto.
  exfalso. rewrite E2, G11 in C2 by auto. injection C2 as <-.
  destruct (sampledG_det X p _ _ _ _ _ _ _ C4 G6') as [-> ->].
  destruct C5 as [(t & a & T1 & T2 & T3 & T4)|(Vs' & T1 & T2 & T3)].
  - destruct (G18 t T1 T2) as (lam & Q & b & R0 & R1 & R2 & R3 & R4).
    apply T4. rewrite (decodes_det p _ _ _ T3 R4). auto.
  - apply T3. rewrite E1, E2, G9.
    rewrite (rounds_match _ _ _ _ _ _ _ _ _ _ _ _ _ _ _ HK HS sig' OS E1 E4 G18 t0 tr Vs' C3 T1 T2). auto.
Qed.

Lemma sign_verify fk fs fv junk sk pk m sig num tree c fullG acts Vs fws fl :
  honest_key fk sk pk -> signed fs sk m sig num tree c fullG acts Vs fws fl -> (fs <= fv)%nat ->
  forall sig', bytes sig' -> firstn (off_seeds p + num * slen) sig' = firstn (off_seeds p + num * slen) sig ->
  LESS_verify X p fv junk pk m sig' = Ok 1.
Proof.
  intros HK HS Hf sig' BS' E.
  pose proof HS as [G1 G2 G3 G4 G5 G6 G7 G8 G9 G10 G11 G12 G13 G14 G15 G16 G17 GZ G18].
  assert (OS : (off_seeds p + num * slen <= length sig)%nat).
  { rewrite G1. unfold sizeof_sign, seed_storage_len. lia. }
  assert (OS' : (off_seeds p + num * slen <= length sig')%nat).
  { apply (f_equal (@length Z)) in E. rewrite !firstn_length in E. lia. }
  assert (RD : forall o n, (o + n <= off_seeds p + num * slen)%nat -> firstn n (skipn o sig') = firstn n (skipn o sig)).
  { intros o k Hk. apply (list_ext 0). { rewrite !firstn_length, !skipn_length. lia. }
    intros i Hi. rewrite firstn_length in Hi. rewrite !nth_firstn by lia. rewrite !nth_skipn.
    rewrite <- (nth_firstn sig' (off_seeds p + num * slen)), <- (nth_firstn sig (off_seeds p + num * slen)) by lia. congruence. }
  eapply sign_verify_gen; eauto.
  - unfold sig_salt. rewrite <- (skipn_O sig'), <- (skipn_O sig). apply RD. unfold off_seeds. lia.
  - unfold sig_digest. apply RD. unfold off_digest, off_seeds. lia.
  - rewrite RD by lia. auto.
  - intros t Ht Hn. destruct (G18 t Ht Hn) as (Q & b & R1 & R2 & R3 & R4 & _). exists 1, Q, b.
    split. { apply one_nz. } split; auto. split; auto. split; auto.
    replace (sig_chunk p sig' (cnt (nz fws) t)) with (sig_chunk p sig (cnt (nz fws) t)); auto.
    unfold sig_chunk. symmetry. apply RD. pose proof (off_monom_fit _ (used_lt p fws G10 t Ht Hn)). unfold off_seeds, off_digest in *. lia.
Qed.

End S.
